(** The R1CS ppzkSNARK: the exponents of the key as forms in the trapdoor, and the algebra of the extraction. *)
From mathcomp Require Import all_ssreflect all_algebra.
From Verif.Model Require Import Base LinearCombination ConstraintSystems Domain ArithmeticPrograms KnowledgeCommitment
  Groth16 OrderedMap Pghr.
From Verif.Spec Require Import LinearSpec GroupSpec AlgebraicSpec.
From Verif.Proofs Require Import NatTac FieldTac LinearProofs DomainProofs ProgramProofs QapProofs KcProofs Groth16Proofs
  PghrProofs UscsSnarkProofs SeSnarkProofs Groth16Extract.
From Verif.Props Require Import C02_R1csSemantics.
Set Implicit Arguments.
Unset Strict Implicit.
Unset Printing Implicit Defensive.
Import GRing.Theory.
Local Open Scope ring_scope.

Section Algebra.
Variable F : fieldType.
Add Field Ff_pgx : (@ffield_theory F).
Local Notation FL := (GRing.regular_lmodType F).

(** Exponents of G1 elements by monomials of the trapdoor. *)
Record pvec := PVec { p_a : F; p_aA : F; p_bB : F; p_c : F; p_cC : F; p_h : F; p_kA : F; p_kB : F; p_kC : F; p_u : F; p_w : F }.
Definition pev (v : pvec) (aA aB aC rA rB be ga : F) : F :=
  rA * (p_a v + aA * p_aA v) + rB * aB * p_bB v + rA * rB * (p_c v + aC * p_cC v) + p_h v
  + be * (rA * p_kA v + rB * p_kB v + rA * rB * p_kC v) + aB * p_u v + ga * be * p_w v.
Definition pzero := PVec 0 0 0 0 0 0 0 0 0 0 0.
Definition plin (c : seq F) (E : seq pvec) : pvec :=
  let f (g : pvec -> F) : F := lin c ([seq g v | v <- E] : seq FL) in
  PVec (f p_a) (f p_aA) (f p_bB) (f p_c) (f p_cC) (f p_h) (f p_kA) (f p_kB) (f p_kC) (f p_u) (f p_w).

Lemma lin_pev (c : seq F) (E : seq pvec) aA aB aC rA rB be ga :
  lin c ([seq pev v aA aB aC rA rB be ga | v <- E] : seq FL) = pev (plin c E) aA aB aC rA rB be ga.
Proof.
rewrite /pev /plin /=.
have h (g : pvec -> F) : lin c ([seq g v | v <- E] : seq FL) = \sum_(i < size E) nth 0 c i * g (nth pzero E i).
  by rewrite /lin size_map; apply: eq_bigr => i _; rewrite (nth_map pzero).
rewrite !h !(mulr_sumr, =^~ big_split) /=; apply: eq_bigr => i _.
by move: (nth _ E i) => [x1 x2 x3 x4 x5 x6 x7 x8 x9 x10 x11] /=; move: (nth 0 c i) => k; fring F.
Qed.

Lemma pghr_algebra (A A' B' C C' H K : pvec) (fB : F -> F -> F -> F -> F -> F -> F) (ic z : F) (S : seq F) :
  uniq S -> (2 < size S)%N -> 0 \notin S ->
  (forall aA aB aC rA rB be ga, aA \in S -> aB \in S -> aC \in S -> rA \in S -> rB \in S -> be \in S -> ga \in S ->
    [/\ aA * pev A aA aB aC rA rB be ga = pev A' aA aB aC rA rB be ga,
        aB * fB aA aC rA rB be ga = pev B' aA aB aC rA rB be ga,
        aC * pev C aA aB aC rA rB be ga = pev C' aA aB aC rA rB be ga,
        (pev A aA aB aC rA rB be ga + rA * ic) * fB aA aC rA rB be ga
        = pev H aA aB aC rA rB be ga * (rA * rB * z) + pev C aA aB aC rA rB be ga
      & ga * pev K aA aB aC rA rB be ga
        = (pev A aA aB aC rA rB be ga + rA * ic + pev C aA aB aC rA rB be ga + fB aA aC rA rB be ga) * (ga * be)]) ->
  p_kA K = p_aA A' + ic /\ p_kA K * p_kB K - p_kC K = p_h H * z.
Proof.
move=> uS lS S0 h; have lS1 : (1 < size S)%N := ltnW lS.
have [s hs] : exists s, s \in S by case: (S) lS => // s ? _; exists s; apply: mem_head.
have nz x : x \in S -> x != 0 by move=> hx; apply: contraNneq S0 => <-.
have hA aA aB aC rA rB be ga : aA \in S -> aB \in S -> aC \in S -> rA \in S -> rB \in S -> be \in S -> ga \in S ->
  pev A aA aB aC rA rB be ga = rA * p_aA A'.
  move=> i1 i2 i3 i4 i5 i6 i7.
  have [|_ e1 e2] := @quad_zero _ (- pev A' 0 aB aC rA rB be ga) (pev A 0 aB aC rA rB be ga - rA * p_aA A')
    (rA * p_aA A) S uS lS.
    move=> a ha; have [/eqP] := h a aB aC rA rB be ga ha i2 i3 i4 i5 i6 i7.
    by rewrite -subr_eq0 => /eqP hh _ _ _ _; rewrite -[RHS]hh /pev; fring F.
  have -> : pev A aA aB aC rA rB be ga = pev A 0 aB aC rA rB be ga + aA * (rA * p_aA A) by rewrite /pev; fring F.
  by rewrite e2 mulr0 addr0; apply/eqP; rewrite -subr_eq0 e1.
have hC aA aB aC rA rB be ga : aA \in S -> aB \in S -> aC \in S -> rA \in S -> rB \in S -> be \in S -> ga \in S ->
  pev C aA aB aC rA rB be ga = rA * rB * p_cC C'.
  move=> i1 i2 i3 i4 i5 i6 i7.
  have [|_ e1 e2] := @quad_zero _ (- pev C' aA aB 0 rA rB be ga) (pev C aA aB 0 rA rB be ga - rA * rB * p_cC C')
    (rA * rB * p_cC C) S uS lS.
    move=> a ha; have [_ _ /eqP] := h aA aB a rA rB be ga i1 i2 ha i4 i5 i6 i7.
    by rewrite -subr_eq0 => /eqP hh _ _; rewrite -[RHS]hh /pev; fring F.
  have -> : pev C aA aB aC rA rB be ga = pev C aA aB 0 rA rB be ga + aC * (rA * rB * p_cC C) by rewrite /pev; fring F.
  by rewrite e2 mulr0 addr0; apply/eqP; rewrite -subr_eq0 e1.
have hB aA aC rA rB be ga : aA \in S -> aC \in S -> rA \in S -> rB \in S -> be \in S -> ga \in S ->
  fB aA aC rA rB be ga = rB * p_bB B' + p_u B'.
  move=> i1 i3 i4 i5 i6 i7.
  have [|_ e1] := @linear_zero _ (- pev B' aA 0 aC rA rB be ga) (fB aA aC rA rB be ga - (rB * p_bB B' + p_u B')) S uS lS1.
    move=> a ha; have [_ /eqP] := h aA a aC rA rB be ga i1 ha i3 i4 i5 i6 i7.
    by rewrite -subr_eq0 => /eqP hh _ _ _; rewrite -[RHS]hh /pev; fring F.
  by apply/eqP; rewrite -subr_eq0 e1.
have hK rA rB ga : rA \in S -> rB \in S -> ga \in S ->
  (rA * p_kA K + rB * p_kB K + rA * rB * p_kC K - (rA * p_aA A' + rA * ic + rA * rB * p_cC C' + rB * p_bB B' + p_u B'))
  + p_w K * ga = 0.
  move=> i4 i5 i7.
  have [|_ e1] := @linear_zero _ (pev K s s s rA rB 0 ga)
    ((rA * p_kA K + rB * p_kB K + rA * rB * p_kC K - (rA * p_aA A' + rA * ic + rA * rB * p_cC C' + rB * p_bB B' + p_u B'))
     + p_w K * ga) S uS lS1; last by [].
  move=> b hb; have [_ _ _ _] := h s s s rA rB b ga hs hs hs i4 i5 hb i7.
  rewrite hA // hC // hB // => /eqP; rewrite -subr_eq0 => /eqP hh.
  apply: (mulfI (nz _ i7)); rewrite mulr0 -[RHS]hh /pev; fring F.
have hK2 rB : rB \in S -> p_kA K - p_aA A' - ic + (p_kC K - p_cC C') * rB = 0 /\ - p_u B' + (p_kB K - p_bB B') * rB = 0.
  move=> i5; have hh rA : rA \in S -> rA * p_kA K + rB * p_kB K + rA * rB * p_kC K
      - (rA * p_aA A' + rA * ic + rA * rB * p_cC C' + rB * p_bB B' + p_u B') = 0.
    by move=> i4; have [-> _] := @linear_zero _ _ _ S uS lS1 (fun ga => hK rA rB ga i4 i5).
  have [|e1 e2] := @linear_zero _ (- p_u B' + (p_kB K - p_bB B') * rB)
     (p_kA K - p_aA A' - ic + (p_kC K - p_cC C') * rB) S uS lS1; last by [].
  by move=> rA /hh hh'; rewrite -[RHS]hh'; fring F.
have [e1 e2] := @linear_zero _ _ _ S uS lS1 (fun rB hr => (hK2 rB hr).1).
have [e3 e4] := @linear_zero _ _ _ S uS lS1 (fun rB hr => (hK2 rB hr).2).
have kA : p_kA K = p_aA A' + ic by apply/eqP; rewrite -subr_eq0 opprD addrA e1.
have kC : p_kC K = p_cC C' by apply/eqP; rewrite -subr_eq0 e2.
have kB : p_kB K = p_bB B' by apply/eqP; rewrite -subr_eq0 e4.
have u0 : p_u B' = 0 by apply/eqP; rewrite -oppr_eq0 e3.
split=> //.
have hH aB rA rB be : aB \in S -> rA \in S -> rB \in S -> be \in S ->
  p_kA K * p_kB K - p_kC K - pev H s aB s rA rB be s * z = 0.
  move=> i2 i4 i5 i6; have [_ _ _] := h s aB s rA rB be s hs i2 hs i4 i5 i6 hs.
  rewrite hA // hC // hB // u0 -kB -kC => /eqP; rewrite -subr_eq0 => /eqP hh _.
  have nn : rA * rB != 0 by rewrite mulf_neq0 // nz.
  by apply: (mulfI nn); rewrite mulr0 -[RHS]hh kA; fring F.
set T := p_kA K * p_kB K - p_kC K in hH *.
have hH1 aB rA rB : aB \in S -> rA \in S -> rB \in S -> T - pev H s aB s rA rB 0 s * z = 0.
  move=> i2 i4 i5; have [|-> _] := @linear_zero _ (T - pev H s aB s rA rB 0 s * z)
    (- (rA * p_kA H + rB * p_kB H + rA * rB * p_kC H + s * p_w H) * z) S uS lS1; last by [].
  by move=> b hb; rewrite -[RHS](hH aB rA rB b) // /pev; fring F.
have hH2 rA rB : rA \in S -> rB \in S -> T - pev H s 0 s rA rB 0 s * z = 0.
  move=> i4 i5; have [|-> _] := @linear_zero _ (T - pev H s 0 s rA rB 0 s * z)
    (- (rB * p_bB H + p_u H) * z) S uS lS1; last by [].
  by move=> b hb; rewrite -[RHS](hH1 b rA rB) // /pev; fring F.
have [|e5 _] := @linear_zero _ (T - p_h H * z) (- (p_a H + s * p_aA H + s * (p_c H + s * p_cC H)) * z) S uS lS1.
  by move=> b hb; rewrite -[RHS](hH2 b s) // /pev; fring F.
by apply/eqP; rewrite -subr_eq0 e5.
Qed.
End Algebra.

Section Els.
Variables (F : fieldType) (G1 G2 GT : lmodType F).
Variable e : G1 -> G2 -> GT.
Add Field Ff_pgz : (@ffield_theory F).
Local Notation FL := (GRing.regular_lmodType F).
Variables (cs : r1cs F) (dom : seq F).
Hypothesis wf : r1cs_wf cs.
Hypothesis ldom : (r_num_constraints cs + r_num_inputs cs + 1 <= size dom)%N.
Notation n := (r_num_variables cs).
Notation ni := (r_num_inputs cs).
Notation m := (size dom).
Variables (asserts : bool) (t aA aB aC rA rB be ga : F) (g1 : G1) (g2 : G2) (chunks : nat).
Local Notation Z := (zeval dom t).

Local Notation Va x := (PVec x 0 0 0 0 0 0 0 0 0 0).
Local Notation Vh x := (PVec 0 0 0 0 0 x 0 0 0 0 0).
Definition Atail (q : qap_eval F) i : F := nth 0 (nseq ni.+1 0 ++ drop ni.+1 (rcons (qe_At q) Z)) i.
Definition pK (q : qap_eval F) : seq (pvec F) :=
  [seq PVec 0 0 0 0 0 0 (nth 0 (qe_At q) i) (nth 0 (qe_Bt q) i) (nth 0 (qe_Ct q) i) 0 0 | i <- iota 0 n.+1]
  ++ [:: PVec 0 0 0 0 0 0 Z 0 0 0 0; PVec 0 0 0 0 0 0 0 Z 0 0 0; PVec 0 0 0 0 0 0 0 0 Z 0 0].
Definition pH : seq (pvec F) := [seq Vh x | x <- powers t m.+1].
Definition ptail (q : qap_eval F) : seq (pvec F) :=
  [seq Va (Atail q i) | i <- iota 0 n.+2]
  ++ [seq PVec 0 (Atail q i) 0 0 0 0 0 0 0 0 0 | i <- iota 0 n.+2]
  ++ [seq PVec 0 0 (nth 0 (rcons (qe_Bt q) Z) i) 0 0 0 0 0 0 0 0 | i <- iota 0 n.+2]
  ++ [seq PVec 0 0 0 (nth 0 (rcons (qe_Ct q) Z) i) 0 0 0 0 0 0 0 | i <- iota 0 n.+2]
  ++ [seq PVec 0 0 0 0 (nth 0 (rcons (qe_Ct q) Z) i) 0 0 0 0 0 0 | i <- iota 0 n.+2]
  ++ [:: PVec 0 0 0 0 0 0 0 0 0 1 0; PVec 0 0 0 0 0 0 0 0 0 0 1]
  ++ [seq Va (nth 0 (qe_At q) i) | i <- iota 0 ni.+1].
Definition pvecs (q : qap_eval F) : seq (pvec F) := pK q ++ pH ++ ptail q.
Definition pexps2 (q : qap_eval F) : seq F :=
  [seq rB * nth 0 (rcons (qe_Bt q) Z) i | i <- iota 0 n.+2] ++ [:: aA; aC; ga; ga * be; rA * rB * Z; 1].

Lemma pghr_els q pk vk : qap_instance_map_with_evaluation dom (swap_AB_if_beneficial cs) t = Some q ->
  pghr_generator asserts dom cs t aA aB aC rA rB be ga g1 g2 chunks = Some (pk, vk) ->
  let get T1 T2 (v : @kc_vector F T1 T2) := [seq kc_get v i | i <- iota 0 (kv_domain_size v)] in
  hk_K_query pk ++ hk_H_query pk ++ [seq v.1 | v <- get _ _ (hk_A_query pk)] ++ [seq v.2 | v <- get _ _ (hk_A_query pk)]
  ++ [seq v.2 | v <- get _ _ (hk_B_query pk)] ++ [seq v.1 | v <- get _ _ (hk_C_query pk)]
  ++ [seq v.2 | v <- get _ _ (hk_C_query pk)] ++ [:: hv_alphaB_g1 vk; hv_gamma_beta_g1 vk]
  ++ (hv_IC_first vk :: hv_IC_rest vk)
  = batch_exp g1 [seq pev v aA aB aC rA rB be ga | v <- pvecs q] /\
  [seq v.1 | v <- get _ _ (hk_B_query pk)]
  ++ [:: hv_alphaA_g2 vk; hv_alphaC_g2 vk; hv_gamma_g2 vk; hv_gamma_beta_g2 vk; hv_rC_Z_g2 vk; g2]
  = batch_exp g2 (pexps2 q).
Proof.
move=> E; rewrite /pghr_generator E {1}/obnd.
have [q' [E' [[sA sB sC] [qi qv qH qZ qd]]]] := @qap_shape _ cs dom wf ldom t.
move: E'; rewrite E => -[E']; rewrite -E' {q' E'} in sA sB sC qi qv qH qZ qd.
cbv zeta; case: ifP => // _; rewrite !kc_batch_expE {1}/obnd {1}/obnd {1}/obnd qi qv qZ qH.
have lni : (ni <= n)%N := leq_addr _ _.
set VA := nseq ni.+1 0 ++ _; set VB := rcons (qe_Bt q) Z; set VC := rcons (qe_Ct q) Z.
have sVA : size VA = n.+2 by rewrite size_cat size_nseq size_drop size_rcons sA subnKC // ltnW.
have sVB : size VB = n.+2 by rewrite size_rcons sB.
have sVC : size VC = n.+2 by rewrite size_rcons sC.
rewrite sVA sVB sVC; have eA i : nth 0 VA i = Atail q i by [].
have hA i : (i <= n)%N -> nth 0 (rcons (qe_At q) Z) i = nth 0 (qe_At q) i by move=> hi; rewrite nth_rcons sA ltnS hi.
have hB i : (i <= n)%N -> nth 0 VB i = nth 0 (qe_Bt q) i by move=> hi; rewrite nth_rcons sB ltnS hi.
have hC i : (i <= n)%N -> nth 0 VC i = nth 0 (qe_Ct q) i by move=> hi; rewrite nth_rcons sC ltnS hi.
set IC := [seq nth 0 _ i | i <- iota 0 ni.+1].
have hIC i : (i <= ni)%N -> nth 0 IC i = nth 0 (qe_At q) i.
  by move=> hi; rewrite (nth_map 0%N) ?size_iota ?ltnS // nth_iota ?ltnS // add0n hA // (leq_trans hi).
have eI : iota 0 ni.+1 = 0%N :: iota 1 ni by [].
have {}hIC1 : [seq rA * nth 0 IC i | i <- iota 1 ni] = [seq rA * nth 0 (qe_At q) i | i <- iota 1 ni].
  by apply/eq_in_map => i; rewrite mem_iota add1n ltnS => /andP[_ hi]; rewrite hIC.
rewrite (hIC 0%N) // hIC1.
have hKt : [seq be * (rA * nth 0 (rcons (qe_At q) Z) i + rB * nth 0 VB i + rA * rB * nth 0 VC i) | i <- iota 0 n.+1]
  = [seq be * (rA * nth 0 (qe_At q) i + rB * nth 0 (qe_Bt q) i + rA * rB * nth 0 (qe_Ct q) i) | i <- iota 0 n.+1].
  by apply/eq_in_map => i; rewrite mem_iota add0n ltnS => /= hi; rewrite hA ?hB ?hC.
rewrite hKt {hKt hIC1 hIC}; rewrite /pvecs /pK /pH /ptail /pexps2 eI -/VB -/VC; clearbody VA VB VC.
set sN := n.+2; have : sN = n.+2 by []; clearbody sN => esN.
move: (iota 1 ni) (powers t m.+1) (iota 0 n.+1) => I P N.
move=> [<- <-]; cbv zeta.
cbn [hk_K_query hk_H_query hk_A_query hk_B_query hk_C_query hv_alphaB_g1 hv_gamma_beta_g1 hv_IC_first hv_IC_rest kv_domain_size
  hv_alphaA_g2 hv_alphaC_g2 hv_gamma_g2 hv_gamma_beta_g2 hv_rC_Z_g2].
move: (iota 0 sN) => J.
rewrite /batch_exp ?map_cat /= ?map_cat /= ?map_cat /= ?map_cat /= -!map_comp; split.
  rewrite -!catA /=.
  congr (_ ++ [:: _, _, _ & _ ++ (_ ++ (_ ++ (_ ++ (_ ++ (_ ++ [:: _, _, _ & _])))))]).
  - by apply: eq_map => x /=; congr (_ *: _); rewrite /pev /=; fring F.
  - by congr (_ *: _); rewrite /pev /=; fring F.
  - by congr (_ *: _); rewrite /pev /=; fring F.
  - by congr (_ *: _); rewrite /pev /=; fring F.
  - by apply: eq_map => x /=; congr (_ *: _); rewrite /pev /=; fring F.
  - by apply: eq_map => x /=; rewrite kc_getE /=; congr (_ *: _); rewrite /pev /= eA; fring F.
  - by apply: eq_map => x /=; rewrite kc_getE /=; congr (_ *: _); rewrite /pev /= eA; fring F.
  - by apply: eq_map => x /=; rewrite kc_getE /=; congr (_ *: _); rewrite /pev /=; fring F.
  - by apply: eq_map => x /=; rewrite kc_getE /=; congr (_ *: _); rewrite /pev /=; fring F.
  - by apply: eq_map => x /=; rewrite kc_getE /=; congr (_ *: _); rewrite /pev /=; fring F.
  - by congr (_ *: _); rewrite /pev /=; fring F.
  - by congr (_ *: _); rewrite /pev /=; fring F.
  - by congr (_ *: _); rewrite /pev /=; fring F.
  - by apply: eq_map => x /=; congr (_ *: _); rewrite /pev /=; fring F.
rewrite scale1r; congr (_ ++ _).
by apply: eq_map => x /=; rewrite kc_getE /=.
Qed.

Lemma pghr_vk q pk vk : qap_instance_map_with_evaluation dom (swap_AB_if_beneficial cs) t = Some q ->
  pghr_generator asserts dom cs t aA aB aC rA rB be ga g1 g2 chunks = Some (pk, vk) ->
  [/\ vk = PghrVerificationKey (aA *: g2) (aB *: g1) (aC *: g2) (ga *: g2) ((ga * be) *: g1)
          ((ga * be) *: g2) ((rA * rB * Z) *: g2) (hv_IC_first vk) (hv_IC_rest vk),
       size (hv_IC_rest vk) = ni
     & forall primary auxiliary, size primary = ni ->
         accumulate_chunk (hv_IC_first vk) (hv_IC_rest vk) primary
         = (rA * part (qe_At q) (primary ++ auxiliary) 0 ni.+1) *: g1].
Proof.
move=> E; rewrite /pghr_generator E {1}/obnd.
have [q' [E' [[sA sB sC] [qi qv qH qZ qd]]]] := @qap_shape _ cs dom wf ldom t.
move: E'; rewrite E => -[E']; rewrite -E' {q' E'} in sA sB sC qi qv qH qZ qd.
cbv zeta; case: ifP => // _; rewrite !kc_batch_expE {1}/obnd {1}/obnd {1}/obnd qi qv qZ => -[_ evk].
have lni : (ni <= n)%N := leq_addr _ _.
have sIC : size (hv_IC_rest vk) = ni by rewrite -evk /= !size_map size_iota.
split=> //; first by rewrite -evk.
move=> primary auxiliary sp; rewrite -evk /=.
rewrite -(accumulate_rA g1 (qe_At q) auxiliary rA sp); congr accumulate_chunk.
  by rewrite (nth_rcons_lt _ sA).
congr batch_exp; apply/eq_in_map => i; rewrite mem_iota add1n => /andP[i1 i2].
case: i i1 i2 => // i _ i2; rewrite /= (nth_map 0%N) ?size_iota // nth_iota // add1n (nth_rcons_lt _ sA) //.
by rewrite (leq_trans i2).
Qed.
End Els.

Section Inputs.
Variable F : fieldType.
Add Field Ff_pgw : (@ffield_theory F).
Variables (cs : r1cs F) (dom : seq F).
Hypothesis wf : r1cs_wf cs.
Hypothesis udom : uniq dom.
Hypothesis ldom : (r_num_constraints cs + r_num_inputs cs + 1 <= size dom)%N.
Notation n := (r_num_variables cs).
Notation ni := (r_num_inputs cs).
Notation nc := (r_num_constraints cs).
Notation m := (size dom).
Local Notation ipoly := (input_poly cs dom).

Lemma ipolyE t q i : qap_instance_map_with_evaluation dom cs t = Some q -> (i <= n)%N ->
  nth 0 (qe_At q) i = (ipoly i).[t].
Proof.
rewrite /qap_instance_map_with_evaluation.
have [At0 [At [-> /= -> sA hA]]] := A_eval wf ldom t.
have [Bt [-> sB _]] := side_eval ldom t (side_rb wf).
have [Ct [-> sC _]] := side_eval ldom t (side_rc wf).
move=> [<-] /= hin.
rewrite /input_poly hornerD hornerN -(hA _ (size_mkseq _ _)) (inner_unit sA hin).
case: eqP => [->|_]; first by rewrite horner0 subr0 addr0.
by rewrite -(hA _ (size_mkseq _ _)) (inner_unit sA) //= addr0 addrC addKr.
Qed.

Lemma ipoly_at i j : (i <= n)%N -> (j <= ni)%N -> (ipoly i).[nth 0 dom (nc + j)] = (i == j)%:R.
Proof.
move=> hi hj; have lt : (nc + j < m)%N by rewrite (leq_trans _ ldom) // addn1 ltnS leq_add2l.
have ljn : (j <= n)%N by apply: leq_trans hj (leq_addr _ _).
have hv w : (polyA cs dom w).[nth 0 dom (nc + j)] = nth 0 (1 :: w) j.
  by rewrite (polyA_at cs udom _ lt) /valA ltnNge leq_addr /= leq_add2l hj addKn.
rewrite /input_poly hornerD hornerN hv.
case: j {hj lt} ljn hv => [|j] ljn hv.
  by case: i hi => [|i] hi /=; rewrite ?horner0 ?hv /= ?subr0 ?subrr.
rewrite /= nth_mkseq // eq_sym; case: i hi => [|i] hi; first by rewrite horner0 subr0.
by rewrite hv /= nth_mkseq // subr0.
Qed.

Lemma input_forced (c : nat -> F) (d : F) (P : {poly F}) (ts primary : seq F) :
  uniq ts -> (m < size ts)%N -> (size P <= m.+1)%N -> (forall j, (j <= ni)%N -> P.[nth 0 dom (nc + j)] = 0) ->
  (forall t, t \in ts -> exists2 q, qap_instance_map_with_evaluation dom cs t = Some q &
     \sum_(i < n.+1) c i * nth 0 (qe_At q) i + d * zeval dom t = P.[t] + part (qe_At q) primary 0 ni.+1) ->
  forall j, (j <= ni)%N -> c j = nth 0 (1 :: primary) j.
Proof.
move=> uts lts sP hP h j hj; have lni : (ni <= n)%N := leq_addr _ _.
pose Zp := \prod_(x <- dom) ('X - x%:P).
pose D := \sum_(i < n.+1) c i *: ipoly i + d *: Zp - (P + \sum_(i < ni.+1) nth 0 (1 :: primary) i *: ipoly i).
have sum_size k (f : nat -> F) : (size (\sum_(i < k) f i *: ipoly i)%R <= m.+1)%N.
  elim/big_ind: _ => [|p q hp hq|i _]; first by rewrite size_poly0.
    by rewrite (leq_trans (size_add _ _)) // geq_max hp.
  by rewrite (leq_trans (size_scale_leq _ _)) // ltnW // ltnS size_input_poly.
have sD : (size D <= m.+1)%N.
  have hadd (p q : {poly F}) : (size p <= m.+1)%N -> (size q <= m.+1)%N -> (size (p + q)%R <= m.+1)%N.
    by move=> h1 h2; rewrite (leq_trans (size_add _ _)) // geq_max h1.
  have h1 := sum_size n.+1 c; have h2 := sum_size ni.+1 (fun i => nth 0 (1 :: primary) i).
  have h3 : (size (d *: Zp)%R <= m.+1)%N by rewrite (leq_trans (size_scale_leq _ _)) // /Zp size_prod_XsubC.
  apply: (hadd); first exact: (hadd).
  by rewrite size_opp; apply: (hadd).
have hZ x : Zp.[x] = zeval dom x by rewrite zevalE.
have hD : D = 0.
  apply: (@roots_geq_poly_eq0 _ D ts) => //; last by rewrite (leq_trans sD).
  apply/allP => t ht; have [q Eq hq] := h t ht; rewrite /root /D hornerD hornerN !hornerD hornerZ hZ.
  have hs k (f : nat -> F) : (k <= n.+1)%N -> (\sum_(i < k) f i *: ipoly i).[t] = \sum_(i < k) f i * nth 0 (qe_At q) i.
    move=> hk; rewrite horner_sum; apply: eq_bigr => i _; rewrite hornerZ (ipolyE Eq) //.
    by rewrite -ltnS (leq_trans (ltn_ord i)).
  rewrite (hs _ c) // (hs _ (fun i => nth 0 (1 :: primary) i)) // hq /part big_mkord subr_eq0; apply/eqP; congr (_ + _).
  by apply: eq_bigr => i _; rewrite mulrC.
have := congr1 (fun p : {poly F} => p.[nth 0 dom (nc + j)]) hD; rewrite horner0 /D hornerD hornerN !hornerD hornerZ hZ.
have lt : (nc + j < m)%N by rewrite (leq_trans _ ldom) // addn1 ltnS leq_add2l.
have -> : zeval dom (nth 0 dom (nc + j)) = 0 by apply/eqP; rewrite zeval_eq0 mem_nth.
rewrite mulr0 addr0 hP // add0r.
have hs k (f : nat -> F) : (j < k)%N -> (k <= n.+1)%N -> (\sum_(i < k) f i *: ipoly i).[nth 0 dom (nc + j)] = f j.
  move=> hjk hk; rewrite horner_sum (bigD1 (Ordinal hjk)) //= hornerZ ipoly_at ?(leq_trans hj) // eqxx mulr1.
  rewrite big1 ?addr0 // => i ne; rewrite hornerZ ipoly_at //; last by rewrite -ltnS (leq_trans (ltn_ord i)).
  have /negbTE -> : (i : nat) != j by apply: contraNneq ne => he; apply/eqP/val_inj.
  by rewrite mulr0.
rewrite (hs _ c) ?ltnS ?(leq_trans hj) // (hs _ (fun i => nth 0 (1 :: primary) i)) ?ltnS // => /eqP.
by rewrite subr_eq0 => /eqP.
Qed.
End Inputs.

Section Coef.
Variable F : fieldType.
Add Field Ff_pgv : (@ffield_theory F).
Local Notation FL := (GRing.regular_lmodType F).
Variables (cs : r1cs F) (dom : seq F) (t : F).
Hypothesis wf : r1cs_wf cs.
Hypothesis udom : uniq dom.
Hypothesis ldom : (r_num_constraints cs + r_num_inputs cs + 1 <= size dom)%N.
Notation scs := (swap_AB_if_beneficial cs).
Notation n := (r_num_variables cs).
Notation ni := (r_num_inputs cs).
Notation m := (size dom).
Local Notation Z := (zeval dom t).

Lemma lin_all0 (c : seq F) (E : seq (pvec F)) f : all (fun v => f v == 0) E -> lin c ([seq f v | v <- E] : seq FL) = 0.
Proof.
move=> h; rewrite /lin big1 // => i _; have hi : (i < size E)%N by rewrite -(size_map f) ltn_ord.
by rewrite (nth_map (pzero F)) //; move/(all_nthP (pzero F)): h => /(_ _ hi) /eqP ->; rewrite scaler0.
Qed.

Lemma all_map0 (T : Type) (f : T -> pvec F) (g : pvec F -> F) (l : seq T) : (forall x, g (f x) = 0) -> all (fun v => g v == 0) [seq f x | x <- l].
Proof. by move=> h; elim: l => //= x l ->; rewrite h eqxx. Qed.

Lemma lin_iota (c : seq F) (f : nat -> F) k : lin c ([seq f i | i <- iota 0 k] : seq FL) = \sum_(i < k) nth 0 c i * f i.
Proof.
by rewrite /lin size_map size_iota; apply: eq_bigr => i _; rewrite (nth_map 0%N) ?size_iota // nth_iota.
Qed.

Lemma lin3 (c : seq F) k (x y z : F) : lin (drop k c) ([:: x; y; z] : seq FL)
  = nth 0 c k * x + nth 0 c k.+1 * y + nth 0 c k.+2 * z.
Proof. by rewrite /lin !big_ord_recr big_ord0 /= add0r !nth_drop addn0 addn1 addn2. Qed.

Lemma pghr_coefK (q : qap_eval F) (c : seq F) :
  [/\ p_kA (plin c (pvecs cs dom t q)) = \sum_(i < n.+1) nth 0 c i * nth 0 (qe_At q) i + nth 0 c n.+1 * Z,
      p_kB (plin c (pvecs cs dom t q)) = \sum_(i < n.+1) nth 0 c i * nth 0 (qe_Bt q) i + nth 0 c n.+2 * Z
    & p_kC (plin c (pvecs cs dom t q)) = \sum_(i < n.+1) nth 0 c i * nth 0 (qe_Ct q) i + nth 0 c n.+3 * Z].
Proof.
rewrite -(lin_iota c (nth 0 (qe_At q))) -(lin_iota c (nth 0 (qe_Bt q))) -(lin_iota c (nth 0 (qe_Ct q))).
rewrite /plin; cbn [p_kA p_kB p_kC]; rewrite /pvecs.
set tl := pH _ _ ++ _.
have ht : [/\ all (fun v => p_kA v == 0) tl, all (fun v => p_kB v == 0) tl & all (fun v => p_kC v == 0) tl].
  rewrite /tl /pH /ptail; move: (powers _ _) (iota 0 n.+2) (iota 0 ni.+1) => P I J; rewrite !all_cat.
  by split; repeat (apply/andP; split); try (by apply: all_map0); rewrite /= ?eqxx.
clearbody tl; case: ht => t1 t2 t3; rewrite /pK.
have eN : size (iota 0 n.+1) = n.+1 by rewrite size_iota.
move: (iota 0 n.+1) eN => N eN.
rewrite !map_cat -!map_comp !lin_cat !(lin_all0 _ t1) !(lin_all0 _ t2) !(lin_all0 _ t3) !size_map eN !addr0.
rewrite ![lin _ (map _ [:: _; _; _])]lin3 /=.
by split; rewrite !mulr0 ?addr0 ?add0r.
Qed.
Lemma pghr_coefH (q : qap_eval F) (c : seq F) :
  p_h (plin c (pvecs cs dom t q)) = (Poly (mkseq (fun i => nth 0 c (n.+4 + i)) m.+1)).[t].
Proof.
rewrite /plin; cbn [p_h]; rewrite /pvecs.
have hK : all (fun v => p_h v == 0) (pK cs dom t q).
  rewrite /pK; move: (iota _ _) => I; rewrite all_cat; apply/andP; split; first exact: all_map0.
  by rewrite /= !eqxx.
have hT : all (fun v => p_h v == 0) (ptail cs dom t q).
  rewrite /ptail; move: (iota 0 n.+2) (iota 0 ni.+1) => I J; rewrite !all_cat.
  by repeat (apply/andP; split); try (by apply: all_map0); rewrite /= ?eqxx.
have sK : size (pK cs dom t q) = n.+4 by rewrite size_cat size_map size_iota addn3.
move: (pK cs dom t q) (ptail cs dom t q) hK hT sK => vK vT hK hT sK.
rewrite map_cat lin_cat map_cat lin_cat !(lin_all0 _ hK) !(lin_all0 _ hT) add0r addr0 size_map sK.
rewrite (@horner_coef_wide _ m.+1) ?(leq_trans (size_Poly _)) ?size_mkseq // /lin /pH !size_map size_powers.
apply: eq_bigr => i _; rewrite -map_comp (nth_map 0) ?size_powers // nth_powers // nth_drop coef_Poly.
by rewrite (nth_mkseq _ _ (ltn_ord i)).
Qed.

(** The coefficient of alphaA * rA is a polynomial in t that vanishes at the domain points of the inputs. *)
Definition tpoly i : {poly F} := if (i <= ni)%N then 0 else if (i <= n)%N then input_poly scs dom i
  else \prod_(x <- dom) ('X - x%:P).
Definition aA_poly (c : seq F) : {poly F} :=
  lin (drop (n.+4 + m.+1 + n.+2) c) [seq tpoly i | i <- iota 0 n.+2].

Lemma scs_ldom : (r_num_constraints scs + r_num_inputs scs + 1 <= m)%N.
Proof. by have [-> _ -> _] := scs_basic wf. Qed.

Lemma tpoly_props i : (i < n.+2)%N -> (size (tpoly i) <= m.+1)%N /\
  forall j, (j <= ni)%N -> (tpoly i).[nth 0 dom (r_num_constraints cs + j)] = 0.
Proof.
have [h1 h2 h3 h4] := scs_basic wf; move=> hi; rewrite /tpoly; case: ifP => hni; first by rewrite size_poly0; split=> // j _; rewrite horner0.
case: ifP => hn.
  split=> [|j hj]; first by rewrite ltnW // ltnS size_input_poly.
  rewrite -h3 (ipoly_at udom scs_ldom) ?h1 ?h2 //.
  by have /negbTE -> : i != j by apply: contraFneq hni => ->.
split=> [|j hj]; first by rewrite size_prod_XsubC.
by rewrite -zevalE; apply/eqP; rewrite zeval_eq0 mem_nth // (leq_trans _ ldom) // addn1 ltnS leq_add2l.
Qed.

Lemma pghr_coefA (q : qap_eval F) (c : seq F) : qap_instance_map_with_evaluation dom scs t = Some q ->
  p_aA (plin c (pvecs cs dom t q)) = (aA_poly c).[t].
Proof.
move=> Eq; have [h1 h2 h3 h4] := scs_basic wf; have lni : (ni <= n)%N := leq_addr _ _.
have [q' [E' [[sA sB sC] [qi qv qH qZ qd]]]] := @qap_shape _ cs dom wf ldom t.
move: E'; rewrite Eq => -[E']; rewrite -E' {q' E'} in sA sB sC qi qv qH qZ qd.
rewrite /plin; cbn [p_aA]; rewrite /pvecs /ptail.
have hK : all (fun v => p_aA v == 0) (pK cs dom t q).
  rewrite /pK; move: (iota _ _) => I; rewrite all_cat; apply/andP; split; first exact: all_map0.
  by rewrite /= !eqxx.
have hH : all (fun v => p_aA v == 0) (pH dom t) by apply: all_map0.
have sK : size (pK cs dom t q) = n.+4 by rewrite size_cat size_map size_iota addn3.
have sH : size (pH dom t) = m.+1 by rewrite size_map size_powers.
move: (pK cs dom t q) (pH dom t) hK hH sK sH => vK vH hK hH sK sH.
set tl := [seq PVec 0 0 (nth 0 (rcons (qe_Bt q) Z) i) 0 0 0 0 0 0 0 0 | i <- iota 0 n.+2] ++ _.
have hT : all (fun v => p_aA v == 0) tl.
  rewrite /tl; move: (iota 0 n.+2) (iota 0 ni.+1) => I J; rewrite !all_cat.
  by repeat (apply/andP; split); try (by apply: all_map0); rewrite /= ?eqxx.
clearbody tl; have eI : size (iota 0 n.+2) = n.+2 by rewrite size_iota.
rewrite map_cat lin_cat map_cat lin_cat map_cat lin_cat map_cat lin_cat (lin_all0 _ hK) (lin_all0 _ hH) (lin_all0 _ hT).
rewrite lin_all0; last by apply: all_map0.
rewrite !add0r addr0 !size_map sK sH eI !drop_drop -map_comp /aA_poly -lin_horner -map_comp.
have -> : (n.+2 + m.+1 + n.+4)%N = (n.+4 + m.+1 + n.+2)%N by rewrite addnC [(n.+2 + _)%N]addnC addnA.
set u := map _ _; set v := [seq (horner^~ t \o _) i | i <- _]; suff -> : u = v by [].
apply/eq_in_map => i; rewrite mem_iota add0n => /= hi; rewrite /tpoly /Atail nth_cat size_nseq ltnS.
case: ifP => hni; first by rewrite horner0 nth_nseq if_same.
rewrite nth_drop subnKC; last by rewrite ltnNge hni.
rewrite nth_rcons sA ltnS; case: ifP => hn; first by rewrite (ipolyE h4 scs_ldom Eq) ?h2.
have -> : i = n.+1 by apply/eqP; rewrite eqn_leq -ltnS hi ltnNge hn.
by rewrite eqxx zevalE.
Qed.

Lemma aA_poly_props c : (size (aA_poly c) <= m.+1)%N /\
  forall j, (j <= ni)%N -> (aA_poly c).[nth 0 dom (r_num_constraints cs + j)] = 0.
Proof.
split=> [|j hj].
  apply: size_lin; apply/allP => p /mapP[i]; rewrite mem_iota add0n => /= hi ->.
  by have [] := tpoly_props hi.
rewrite /aA_poly -lin_horner -map_comp lin_iota big1 // => i _.
by have [_ /= ->] := tpoly_props (ltn_ord i); rewrite ?mulr0.
Qed.

End Coef.

Lemma sat_conv_d (F : fieldType) (cs : r1cs F) (dom : seq F) (t d1 d2 d3 : F) (q : qap_eval F) (H x : seq F) :
  let n := r_num_variables cs in let m := size dom in let ni := r_num_inputs cs in
  size (qe_At q) = n.+1 -> size (qe_Bt q) = n.+1 -> size (qe_Ct q) = n.+1 ->
  qe_num_inputs q = ni -> qe_num_variables q = n -> qe_Ht q = powers t m.+1 -> qe_Zt q = zeval dom t -> qe_degree q = m ->
  qe_domain q = dom -> qe_t q = t -> size x = n -> size H = m.+1 ->
  (part (qe_At q) x 0 n.+1 + d1 * zeval dom t) * (part (qe_Bt q) x 0 n.+1 + d2 * zeval dom t)
    - (part (qe_Ct q) x 0 n.+1 + d3 * zeval dom t) = (Poly H).[t] * zeval dom t ->
  qap_eval_is_satisfied q (QapWitness n m ni d1 d2 d3 x H).
Proof.
move=> n m ni sA sB sC qi qv qH qZ qd qD qt sx sH h; rewrite /qap_eval_is_satisfied.
rewrite qv qd qi sA sB sC qH qZ qD qt; cbn [qw_num_variables qw_degree qw_num_inputs qw_ABCs qw_H qw_d1 qw_d2 qw_d3].
rewrite sx sH size_powers !eqxx.
have hH := @inner_powers _ t m.+1 _ sH.
move: (powers t m.+1) hH => Ht hH; cbv beta iota delta [orb negb].
by rewrite [head 0 (qe_At q) + _ + _]addrAC [head 0 (qe_Bt q) + _ + _]addrAC [head 0 (qe_Ct q) + _ + _]addrAC
  (part_headN sA sx) (part_headN sB sx) (part_headN sC sx) add0r hH h eqxx.
Qed.
