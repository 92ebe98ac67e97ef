(** The simulation-extractable R1CS ppzkSNARK (Groth-Maller): keys and honest proof in closed form, the exponents of the
    key as linear forms in the trapdoor. *)
From mathcomp Require Import all_ssreflect all_algebra.
From Verif.Model Require Import Base LinearCombination ConstraintSystems Domain ArithmeticPrograms KnowledgeCommitment
  Groth16 OrderedMap SePpzksnark.
From Verif.Spec Require Import LinearSpec GroupSpec AlgebraicSpec.
From Verif.Proofs Require Import NatTac FieldTac LinearProofs DomainProofs ProgramProofs SapProofs KcProofs Groth16Proofs
  PermProofs PghrProofs UscsSnarkProofs.
From Verif.Props Require Import C02_R1csSemantics.
Set Implicit Arguments.
Unset Strict Implicit.
Unset Printing Implicit Defensive.
Import GRing.Theory.
Local Open Scope ring_scope.

(** A polynomial with more roots than coefficients. *)
Lemma list_zero (F : fieldType) (l gs : seq F) : uniq gs -> (size l <= size gs)%N ->
  (forall g, g \in gs -> (Poly l).[g] = 0) -> forall i, nth 0 l i = 0.
Proof.
move=> ug lg h i; suff p0 : Poly l = 0 by rewrite -coef_Poly p0 coef0.
apply/eqP/negPn/negP => p0.
have hr : all (root (Poly l)) gs by apply/allP => g /h hg; rewrite rootE hg.
have := leq_trans (max_poly_roots p0 hr ug) (size_Poly l).
by rewrite ltnNge lg.
Qed.

Lemma geometricE (F : fieldType) (c t : F) k : geometric c t k = [seq c * x | x <- powers t k].
Proof.
apply: (@eq_from_nth _ 0).
  by rewrite size_map size_powers; elim: k c => //= k IH c; rewrite IH.
have s : forall c, size (geometric c t k) = k by elim: k => //= k IH c'; rewrite IH.
rewrite s => i hi; rewrite (nth_map 0) ?size_powers // nth_powers //.
elim: k c i hi {s} => // k IH c [|i] hi /=; first by rewrite expr0 mulr1.
by rewrite IH // exprS mulrA.
Qed.

Section Se.
Variables (F : fieldType) (G1 G2 GT : lmodType F).
Variable e : G1 -> G2 -> GT.
Add Field Ff_sesn : (@ffield_theory F).
Variables (cs : r1cs F) (dom : seq F).
Hypothesis wf : r1cs_wf cs.
Hypothesis udom : uniq dom.
Hypothesis ldom : (sap_domain_size cs <= size dom)%N.
Notation n := (r_num_variables cs).
Notation ni := (r_num_inputs cs).
Notation N := (sap_num_variables cs).
Notation m := (size dom).

Lemma ni_N : (ni <= N)%N.
Proof. by rewrite /sap_num_variables /r_num_inputs; slia. Qed.

(** The polynomials of variable [i]. *)
Definition apoly (i : nat) : {poly F} :=
  SapProofs.polyA cs dom (unit_w F N i) - (if i == 0%N then 0 else SapProofs.polyA cs dom (unit_w F N 0)).

Lemma size_apoly i : (size (apoly i) <= m)%N.
Proof.
have h w : (size (SapProofs.polyA cs dom w) <= m)%N by apply: size_inv_poly.
rewrite /apoly (leq_trans (size_add _ _)) // geq_max h size_opp; case: ifP => _ /=; rewrite ?size_poly0 //.
Qed.

Lemma sap_inst t : exists At Ct, [/\ sap_instance_map_with_evaluation dom cs t
    = Some (SapEval N m ni dom t At Ct (powers t m.+1) (zeval dom t)),
    size At = N.+1 /\ size Ct = N.+1, At = [seq (apoly i).[t] | i <- iota 0 N.+1],
    forall w, size w = N -> part At w 0 N.+1 = (SapProofs.polyA cs dom w).[t]
  & forall w, size w = N -> part Ct w 0 N.+1 = (SapProofs.polyC cs dom w).[t]].
Proof.
rewrite /sap_instance_map_with_evaluation; set u := evaluate_all_lagrange_polynomials _ _.
have hvA := @A_vars _ cs wf u; have hvC := @C_vars _ cs wf u.
have [At [eA sA hA]] := run_adds_zero (SapProofs.vars_lt hvA).
have [Ct [eC sC hC]] := run_adds_zero (SapProofs.vars_lt hvC).
have hA' w (sw : size w = N) : head 0 At + inner_product (behead At) w = (SapProofs.polyA cs dom w).[t].
  by rewrite (ans_denote sA sw hA hvA) (A_denote ldom) polyA_horner.
have hC' w (sw : size w = N) : head 0 Ct + inner_product (behead Ct) w = (SapProofs.polyC cs dom w).[t].
  by rewrite (ans_denote sC sw hC hvC) (C_denote ldom) polyC_horner.
exists At, Ct; rewrite eA {1}/obnd eC {1}/obnd; split=> //; last first.
- by move=> w sw; rewrite -hC' // (part_headN sC).
- by move=> w sw; rewrite -hA' // (part_headN sA).
apply: (@eq_from_nth _ 0); first by rewrite size_map size_iota.
move=> i; rewrite sA => hi; rewrite (nth_map 0%N) ?size_iota // nth_iota // add0n.
rewrite /apoly hornerD hornerN -(hA' _ (size_mkseq _ _)) (inner_unit sA) //.
case: eqP => [->|_]; first by rewrite horner0 subr0 addr0.
by rewrite -(hA' _ (size_mkseq _ _)) (inner_unit sA) //= addr0 addrC addKr.
Qed.

Variables (t alpha beta gamma : F) (G : G1) (H : G2).
Local Notation Z := (zeval dom t).
Local Notation s := (alpha + beta).

Lemma se_genE At Ct : sap_instance_map_with_evaluation dom cs t
    = Some (SapEval N m ni dom t At Ct (powers t m.+1) Z) -> size At = N.+1 ->
  se_generator dom cs t alpha beta gamma G H =
  if Z != 0 then
    Some (SeProvingKey (batch_exp G [seq gamma * a | a <- At]) (batch_exp (gamma *: H) At)
        (batch_exp G [seq gamma * (gamma * nth 0 Ct i + s * nth 0 At i) | i <- iota ni.+1 (N - ni)])
        (batch_exp G [seq (gamma * gamma * Z + gamma * gamma * Z) * nth 0 At i | i <- iota 0 N.+1])
        ((Z * gamma) *: G) ((Z * gamma) *: H) ((s * (Z * gamma)) *: G) ((Z * gamma * (Z * gamma)) *: G)
        (batch_exp G [seq Z * gamma ^+ 2 * x | x <- powers t m.+1]) cs,
      SeVerificationKey H (alpha *: G) (beta *: H) (gamma *: G) (gamma *: H)
        (batch_exp G [seq gamma * nth 0 Ct i + s * nth 0 At i | i <- iota 0 ni.+1]))
  else None.
Proof.
move=> h sA; rewrite /se_generator h; case: ifP => // _; rewrite {1}/obnd; cbv zeta.
rewrite [se_At _]/= [se_Ct _]/= [se_num_inputs _]/= [se_num_variables _]/= [se_Zt _]/= [se_degree _]/= geometricE.
by rewrite !scalerA.
Qed.

(** The exponents of the elements of G1, as vectors of coefficients of alpha, s, gamma, s * gamma, gamma^2. *)
Definition vec := (F * F * F * F * F)%type.
Definition ev (v : vec) (a s' g : F) : F :=
  v.1.1.1.1 * a + v.1.1.1.2 * s' + v.1.1.2 * g + v.1.2 * (s' * g) + v.2 * g ^+ 2.
Definition elist (At Ct : seq F) : seq vec :=
  [seq (0, 0, a, 0, 0) | a <- At]
  ++ [seq (0, 0, 0, nth 0 At i, nth 0 Ct i) | i <- iota ni.+1 (N - ni)]
  ++ [seq (0, 0, 0, 0, (Z + Z) * nth 0 At i) | i <- iota 0 N.+1]
  ++ [:: (0, 0, Z, 0, 0); (0, 0, 0, Z, 0); (0, 0, 0, 0, Z * Z)]
  ++ [seq (0, 0, 0, 0, Z * x) | x <- powers t m.+1]
  ++ [:: (1, 0, 0, 0, 0); (0, 0, 1, 0, 0)]
  ++ [seq (0, nth 0 At i, nth 0 Ct i, 0, 0) | i <- iota 0 ni.+1].

Lemma lin_ev (c : seq F) (E : seq vec) a s' g :
  lin c ([seq ev v a s' g | v <- E] : seq (GRing.regular_lmodType F))
  = lin c ([seq v.1.1.1.1 | v <- E] : seq (GRing.regular_lmodType F)) * a
    + lin c ([seq v.1.1.1.2 | v <- E] : seq (GRing.regular_lmodType F)) * s'
    + lin c ([seq v.1.1.2 | v <- E] : seq (GRing.regular_lmodType F)) * g
    + lin c ([seq v.1.2 | v <- E] : seq (GRing.regular_lmodType F)) * (s' * g)
    + lin c ([seq v.2 | v <- E] : seq (GRing.regular_lmodType F)) * g ^+ 2.
Proof.
rewrite /lin !size_map !mulr_suml -!big_split /=; apply: eq_bigr => i _.
rewrite !(nth_map (0, 0, 0, 0, 0)) // /ev /GRing.scale /=.
by move: (nth _ E i) => [[[[v1 v2] v3] v4] v5] /=; move: (nth 0 c i) => k; fring F.
Qed.

Lemma se_els At Ct pk vk : sap_instance_map_with_evaluation dom cs t
    = Some (SapEval N m ni dom t At Ct (powers t m.+1) Z) -> size At = N.+1 ->
  se_generator dom cs t alpha beta gamma G H = Some (pk, vk) ->
  sk_A_query pk ++ sk_C_query_1 pk ++ sk_C_query_2 pk ++ [:: sk_G_gamma_Z pk; sk_G_ab_gamma_Z pk; sk_G_gamma2_Z2 pk]
  ++ sk_G_gamma2_Z_t pk ++ [:: sv_G_alpha vk; sv_G_gamma vk] ++ sv_query vk
  = batch_exp G [seq ev v alpha s gamma | v <- elist At Ct].
Proof.
move=> E sA; rewrite (se_genE E sA); case: ifP => // _.
rewrite /elist; move: (powers t m.+1) (iota 0 N.+1) (iota ni.+1 _) (iota 0 ni.+1) => P l1 l2 l3.
move=> [<- <-] /=; rewrite /batch_exp !map_cat -!map_comp /= map_cat /= -!map_comp.
congr (_ ++ (_ ++ (_ ++ (_ :: _ :: _ :: (_ ++ (_ :: _ :: _)))))).
- by apply: eq_map => x /=; rewrite /ev /=; congr (_ *: _); fring F.
- by apply: eq_map => x /=; rewrite /ev /=; congr (_ *: _); fring F.
- by apply: eq_map => x /=; rewrite /ev /=; congr (_ *: _); fring F.
- by rewrite /ev /=; congr (_ *: _); fring F.
- by rewrite /ev /=; congr (_ *: _); fring F.
- by rewrite /ev /=; congr (_ *: _); fring F.
- by apply: eq_map => x /=; rewrite /ev /=; congr (_ *: _); fring F.
- by rewrite /ev /=; congr (_ *: _); fring F.
- by rewrite /ev /=; congr (_ *: _); fring F.
- by apply: eq_map => x /=; rewrite /ev /=; congr (_ *: _); fring F.
Qed.

(** What a coefficient list [c] over these elements contains: private variables, blinding, quotient. *)
Definition se_priv (c : seq F) : seq F := mkseq (nth 0 (drop N.+1 c)) (N - ni).
Definition se_rest (c : seq F) : seq F := drop (N - ni) (drop N.+1 c).
Definition se_d (c : seq F) : F := nth 0 (drop N.+1 (se_rest c)) 1.
Definition se_h (c : seq F) : {poly F} :=
  lin (se_rest c) [seq apoly i + apoly i | i <- iota 0 N.+1] + nth 0 (drop N.+1 (se_rest c)) 2 *: zpoly dom
  + lin (drop 3 (drop N.+1 (se_rest c))) (mkseq (fun i => 'X^i) m.+1).

Lemma size_se_h c : (size (se_h c) <= m.+1)%N.
Proof.
have h1 : (size (lin (drop 3 (drop N.+1 (se_rest c))) (mkseq (fun i => 'X^i : {poly F}) m.+1)) <= m.+1)%N.
  apply: size_lin; apply/allP => p /mapP [i]; rewrite mem_iota => /andP[_ hi] ->; by rewrite size_polyXn.
have h2 : (size (lin (se_rest c) [seq (apoly i + apoly i)%R | i <- iota 0 N.+1]) <= m.+1)%N.
  apply: size_lin; apply/allP => p /mapP [i _ ->]; rewrite (leq_trans (size_add _ _)) // maxnn.
  by rewrite (leq_trans (size_apoly i)).
have h3 k : (size (k *: zpoly dom) <= m.+1)%N by rewrite (leq_trans (size_scale_leq _ _)) // size_zpoly.
rewrite /se_h (leq_trans (size_add _ _)) // geq_max h1 andbT (leq_trans (size_add _ _)) // geq_max h2 h3 //.
Qed.

Local Notation FL := (GRing.regular_lmodType F).
Lemma lin_zeros (T : Type) (f : T -> F) (l : seq T) (c : seq F) : (forall x, f x = 0) -> lin c ([seq f x | x <- l] : seq FL) = 0.
Proof.
move=> h; rewrite /lin big1 // => i _; have hi : (i < size l)%N by rewrite -(size_map f) ltn_ord.
case: l i hi => [|x0 l] i hi //; by rewrite (nth_map x0) // h scaler0.
Qed.

Lemma lin_priv (u c primary : seq F) : size primary = ni ->
  lin (drop N.+1 c) ([seq nth 0 u i | i <- iota ni.+1 (N - ni)] : seq FL) = part u (primary ++ se_priv c) ni.+1 N.+1.
Proof.
move=> sp; rewrite /part /lin size_map size_iota -{2}[ni.+1]add0n big_addn subSS big_mkord.
apply: eq_bigr => i _; rewrite (nth_map 0%N) ?size_iota // nth_iota // /GRing.scale /= mulrC.
rewrite addSn addnS [(i + ni)%N]addnC /= nth_cat sp ltnNge leq_addr /= addKn.
by rewrite nth_mkseq.
Qed.

Lemma se_coef4 (At Ct c primary : seq F) : size At = N.+1 -> size primary = ni ->
  lin c ([seq v.1.2 | v <- elist At Ct] : seq FL) = part At (primary ++ se_priv c) ni.+1 N.+1 + se_d c * Z.
Proof.
move=> sA sp; rewrite /elist; move: (powers t m.+1) => P; rewrite !map_cat -!map_comp.
rewrite lin_cat lin_zeros // add0r size_map sA lin_cat (lin_priv _ _ sp) size_map size_iota; congr (_ + _).
rewrite lin_cat lin_zeros // add0r size_map size_iota -/(se_rest c) lin_cat.
set l1 := map _ [:: _; _; _]; rewrite {}/l1; cbn [map]; set rst := lin _ (_ ++ _).
have -> : rst = 0.
  rewrite /rst lin_cat lin_zeros // add0r lin_cat lin_zeros // addr0.
  by rewrite /lin big_ord_recr big_ord_recr big_ord0 /= !scaler0 !addr0.
rewrite addr0 /lin !big_ord_recr big_ord0 /= !scaler0 add0r addr0 add0r /se_d /GRing.scale /=.
by [].
Qed.

Lemma se_coef5 (At Ct c primary : seq F) : size At = N.+1 -> At = [seq (apoly i).[t] | i <- iota 0 N.+1] -> size primary = ni ->
  lin c ([seq v.2 | v <- elist At Ct] : seq FL) = part Ct (primary ++ se_priv c) ni.+1 N.+1 + (se_h c).[t] * Z.
Proof.
move=> sA eA sp; rewrite /elist; have eP : powers t m.+1 = [seq p.[t] | p <- mkseq (fun i => 'X^i) m.+1].
  apply: (@eq_from_nth _ 0); first by rewrite size_map size_mkseq size_powers.
  rewrite size_powers => i hi; by rewrite nth_powers // (nth_map 0) ?size_mkseq // nth_mkseq // hornerXn.
move: (powers t m.+1) eP => P eP; move: (iota 0 ni.+1) => Li.
set I := iota 0 N.+1; have eI : I = iota 0 N.+1 by []; clearbody I.
have sI : size I = N.+1 by rewrite eI size_iota.
rewrite !map_cat -!map_comp.
rewrite lin_cat lin_zeros // add0r size_map sA lin_cat (lin_priv _ _ sp) size_map size_iota; congr (_ + _).
rewrite lin_cat size_map sI -/(se_rest c) lin_cat.
cbn [map]; rewrite [size _]/=.
rewrite [lin _ [:: _; _; _]]/lin !big_ord_recr big_ord0 /= !scaler0 add0r add0r.
rewrite [lin _ (_ ++ _)]lin_cat; set rst := lin _ (_ :: _ :: _); have {rst} -> : rst = 0.
  by rewrite /rst !lin_cons !scaler0 !add0r; apply: lin_zeros.
rewrite add0r addr0.
rewrite /se_h -eI !hornerD hornerZ -zevalE -!lin_horner -eP -map_comp !mulrDl addrA; congr (_ + _ + _).
- rewrite /lin !size_map mulr_suml sI; apply: eq_bigr => i _.
  have hi : (i < N.+1)%N by rewrite ltn_ord.
  rewrite !(nth_map 0%N) ?sI // eI nth_iota //= add0n eA (nth_map 0%N) ?size_iota // nth_iota // add0n hornerD.
  by rewrite /GRing.scale /=; move: (nth 0 _ _) ((apoly i).[t]) => p q; fring F.
- by rewrite /GRing.scale /= mulrA.
rewrite /lin !size_map mulr_suml; apply: eq_bigr => i _; rewrite (nth_map 0) //.
by rewrite /GRing.scale /= mulrCA mulrC.
Qed.

(** The algebra of the extraction: a polynomial identity in gamma (degree 4) and s (degree 2). *)
Lemma se_algebra (a1 a2 a3 a4 a5 c1 c2 c3 c4 c5 pA pC al : F) (bs gs : seq F) :
  uniq bs -> (2 < size bs)%N -> uniq gs -> (4 < size gs)%N ->
  (forall b g, b \in bs -> g \in gs ->
    let s' := al + b in
    let a := a1 * al + a2 * s' + a3 * g + a4 * (s' * g) + a5 * g ^+ 2 in
    a ^+ 2 + s' * a - g * (g * pC + s' * pA) = c1 * al + c2 * s' + c3 * g + c4 * (s' * g) + c5 * g ^+ 2) ->
  (pA + c4) ^+ 2 = pC + c5.
Proof.
move=> ub lb ug lg h.
have HH s' : s' \in [seq al + b | b <- bs] ->
  let u := a1 * al + a2 * s' in let v := a3 + a4 * s' in
  [/\ u ^+ 2 + s' * u - c1 * al - c2 * s' = 0, (u + u) * v + s' * v - s' * pA - (c3 + c4 * s') = 0,
      v ^+ 2 + (u + u) * a5 + s' * a5 - pC - c5 = 0 & a5 ^+ 2 = 0].
  move=> /mapP [b hb es] u v.
  pose l := [:: u ^+ 2 + s' * u - c1 * al - c2 * s'; (u + u) * v + s' * v - s' * pA - (c3 + c4 * s');
      v ^+ 2 + (u + u) * a5 + s' * a5 - pC - c5; (v + v) * a5; a5 ^+ 2].
  have := @list_zero _ l gs ug lg => hl.
  have {}hl : forall i, nth 0 l i = 0.
    apply: hl => g hg; have /eqP := h b g hb hg; rewrite -subr_eq0 => /eqP h'.
    rewrite -[RHS]h' /l /= !cons_poly_def !hornerE /= /u /v es; fring F.
  by split; [have := hl 0%N | have := hl 1%N | have := hl 2%N | have := hl 4%N].
have us : uniq [seq al + b | b <- bs] by rewrite map_inj_uniq //; apply: addrI.
have ls : (2 < size [seq (al + b)%R | b <- bs])%N by rewrite size_map.
move: [seq al + b | b <- bs] us ls HH => ss us ls HH.
have a50 : a5 = 0.
  case: (ss) ls HH => // x0 ? _ /(_ x0 (mem_head _ _)) [_ _ _ /eqP].
  by rewrite expf_eq0 /= => /eqP.
have [|h1 _ /eqP] := @quad_zero _ (a3 ^+ 2 - pC - c5) (a3 * a4 + a3 * a4) (a4 ^+ 2) ss us ls.
  by move=> x /HH [_ _ <- _]; rewrite a50; fring F.
rewrite expf_eq0 /= => /eqP a40.
have [|_ h2 _] := @quad_zero _ ((a1 * al + a1 * al) * a3 - c3) ((a2 + a2) * a3 + a3 - pA - c4) 0 ss us ls.
  by move=> x /HH [_ hx _ _]; rewrite -[RHS]hx a40; fring F.
have [|_ _ h3] := @quad_zero _ ((a1 * al) ^+ 2 - c1 * al) ((a1 * al * a2) + (a1 * al * a2) + a1 * al - c2) (a2 ^+ 2 + a2) ss us ls.
  by move=> x /HH [<- _ _ _]; fring F.
have -> : pA + c4 = (a2 + a2) * a3 + a3.
  by apply/eqP; rewrite eq_sym -subr_eq0 -h2; apply/eqP; fring F.
have -> : pC + c5 = a3 ^+ 2 by apply/eqP; rewrite eq_sym -subr_eq0 -h1; apply/eqP; fring F.
have -> : ((a2 + a2) * a3 + a3) ^+ 2 = (1 + (1 + 1 + 1 + 1) * (a2 ^+ 2 + a2)) * a3 ^+ 2 by fring F.
by rewrite h3 mulr0 addr0 mul1r.
Qed.

Lemma part_multiexp (T : lmodType F) (b : T) (u x : seq F) k : size u = k.+1 -> size x = k ->
  multiexp (drop 1 (batch_exp b u)) x = (part u x 0 k.+1 - nth 0 u 0) *: b.
Proof.
case: u => // c u [su] sx; rewrite /= drop0 multiexp_scale su sx minnn /part big_nat_recl //= mulr1 addrC addrA.
by rewrite addNr add0r big_mkord.
Qed.

Lemma multiexp_iota (T : lmodType F) (b : T) (f : nat -> F) (x : seq F) lo hi : (lo <= hi)%N -> size x = hi ->
  multiexp (batch_exp b [seq f i | i <- iota lo.+1 (hi - lo)]) (drop lo x)
  = (\sum_(lo.+1 <= i < hi.+1) f i * nth 0 (1 :: x) i) *: b.
Proof.
move=> h sx; rewrite multiexp_scale size_map size_iota size_drop sx minnn; congr (_ *: _).
rewrite -{2}[lo.+1]add0n big_addn subSS big_mkord; apply: eq_bigr => i _.
by rewrite (nth_map 0%N) ?size_iota // nth_iota // nth_drop addnS /= addSn addnC.
Qed.

Lemma part_splitS (u x : seq F) : part u x 0 N.+1 = part u x 0 ni.+1 + part u x ni.+1 N.+1.
Proof. by rewrite /part (@big_cat_nat _ _ _ ni.+1) //= ltnS ni_N. Qed.

Lemma part_take (u x primary : seq F) : take ni x = primary -> size primary = ni -> part u x 0 ni.+1 = part u primary 0 ni.+1.
Proof.
move=> <- _; apply: part_eq => // -[|i] //= hi; by rewrite nth_take.
Qed.

Lemma se_vkE At Ct pk vk : sap_instance_map_with_evaluation dom cs t
    = Some (SapEval N m ni dom t At Ct (powers t m.+1) Z) -> size At = N.+1 ->
  se_generator dom cs t alpha beta gamma G H = Some (pk, vk) ->
  [/\ Z != 0,
      vk = SeVerificationKey H (alpha *: G) (beta *: H) (gamma *: G) (gamma *: H) (sv_query vk),
      size (sv_query vk) = ni.+1 &
      forall primary, size primary = ni ->
        nth 0 (sv_query vk) 0 + multiexp (drop 1 (sv_query vk)) primary
        = (gamma * part Ct primary 0 ni.+1 + s * part At primary 0 ni.+1) *: G].
Proof.
move=> E sA; rewrite (se_genE E sA); move: (batch_exp G [seq _ * _ | x <- powers t m.+1]) => Hq.
set Vq := batch_exp G [seq _ | i <- iota 0 ni.+1].
have eVq : Vq = batch_exp G [seq gamma * nth 0 Ct i + s * nth 0 At i | i <- iota 0 ni.+1] by [].
have sVq : size Vq = ni.+1 by rewrite !size_map size_iota.
clearbody Vq; case: ifP => // z0 [_ <-]; split=> //=.
move=> primary sp; rewrite eVq; set u := map _ _.
have su : size u = ni.+1 by rewrite size_map size_iota.
rewrite (part_multiexp _ su sp) /batch_exp (nth_map 0) ?su // -scalerDl addrC subrK; congr (_ *: _).
rewrite /part !mulr_sumr -big_split; apply: eq_big_nat => i /andP[_ hi].
rewrite /u (nth_map 0%N) ?size_iota // nth_iota // add0n.
by move: (nth _ _ _) (nth _ _ _) (nth _ _ _) => p q w /=; fring F.
Qed.

(** The extended assignment computed by the prover. *)
Definition se_full (gen : F) primary auxiliary d1 d2 : seq F :=
  oapp (@sw_ACs F) [::] (sap_witness_map dom gen cs primary auxiliary d1 d2).

Variable gen : F.
Hypothesis gen0 : gen != 0.
Hypothesis genz : forall x, x \in dom -> gen * x \notin dom.

Lemma se_closed : exists At Ct,
  isSome (se_generator dom cs t alpha beta gamma G H) = (Z != 0) /\
  forall pk vk, se_generator dom cs t alpha beta gamma G H = Some (pk, vk) ->
  [/\ Z != 0,
      vk = SeVerificationKey H (alpha *: G) (beta *: H) (gamma *: G) (gamma *: H) (sv_query vk),
      size (sv_query vk) = ni.+1,
      forall primary, size primary = ni ->
        nth 0 (sv_query vk) 0 + multiexp (drop 1 (sv_query vk)) primary
        = (gamma * part Ct primary 0 ni.+1 + s * part At primary 0 ni.+1) *: G
    & forall primary auxiliary d1 d2 r,
     size primary = ni -> (size primary + size auxiliary)%N = n -> r_is_satisfied cs primary auxiliary = Some true ->
     let x := se_full gen primary auxiliary d1 d2 in
     let psi := gamma * part Ct primary 0 ni.+1 + s * part At primary 0 ni.+1 in
     let a := gamma * (part At x 0 N.+1 + (d1 + r) * Z) in
     se_prover dom gen pk primary auxiliary d1 d2 r
     = Some (SeProof (a *: G) (a *: H) ((a ^+ 2 + s * a - gamma * psi) *: G))].
Proof.
have [At [Ct [E [sA sC] _ hA hC]]] := sap_inst t.
have hg := se_genE E sA; exists At, Ct; split; first by rewrite hg; case: ifP.
rewrite hg.
set Hq := batch_exp G [seq Z * gamma ^+ 2 * x | x <- powers t m.+1].
have eHq : Hq = batch_exp G [seq Z * gamma ^+ 2 * x | x <- powers t m.+1] by [].
set Cq := batch_exp G [seq _ | i <- iota 0 N.+1].
have eCq : Cq = batch_exp G [seq (gamma * gamma * Z + gamma * gamma * Z) * a | a <- At].
  congr batch_exp; apply: (@eq_from_nth _ 0); rewrite !size_map size_iota ?sA // => i hi.
  by rewrite !(nth_map 0) ?sA // (nth_map 0%N) ?size_iota // nth_iota.
set Vq := batch_exp G [seq _ | i <- iota 0 ni.+1].
have eVq : Vq = batch_exp G [seq gamma * nth 0 Ct i + s * nth 0 At i | i <- iota 0 ni.+1] by [].
have sVq : size Vq = ni.+1 by rewrite !size_map size_iota.
clearbody Hq Cq Vq; case: ifP => // z0 pk vk [<- <-]; split=> //=.
  move=> primary sp; rewrite eVq; set u := map _ _.
  have su : size u = ni.+1 by rewrite size_map size_iota.
  rewrite (part_multiexp _ su sp) /batch_exp (nth_map 0) ?su // -scalerDl addrC subrK; congr (_ *: _).
  rewrite /part !mulr_sumr -big_split; apply: eq_big_nat => i /andP[_ hi].
  rewrite /u (nth_map 0%N) ?size_iota // nth_iota // add0n.
  by move: (nth _ _ _) (nth _ _ _) (nth _ _ _) => p q w /=; fring F.
move=> primary auxiliary d1 d2 r sp sz sat.
have sf : size (primary ++ auxiliary) = n by rewrite size_cat.
have hsat : forall k, k \in r_constraints cs -> denote (ra k) (primary ++ auxiliary) * denote (rb k) (primary ++ auxiliary)
   = denote (rc k) (primary ++ auxiliary).
  have [b [eb hb]] := C02_r1cs_is_satisfied wf sp sz.
  by move: eb; rewrite sat => -[eb]; apply: hb.1; rewrite -eb.
have [w [e1 e2 [e3 e3'] e4]] := @sap_complete _ cs wf dom udom ldom gen gen0 genz primary auxiliary d1 d2 sf hsat.
have [q [Eq hs]] := e4 t.
have [q' [Eq' hs']] := @sap_eval_spec _ cs wf dom ldom t.
move: Eq'; rewrite Eq => -[Eq']; rewrite -Eq' in hs'.
have [[h1 h2 h3 h4 h5] h6] := (hs' w).1 hs.
rewrite /se_full e1 /= /se_prover /= e1 /=.
move: h6; rewrite e3 e3'; set x := sw_ACs w; rewrite -/x in e2 h4 => h6.
have tx : take ni x = primary.
  have -> : take ni x = take ni (take n x) by rewrite take_take // leq_addr.
  by rewrite e2 take_cat -sp ltnn subnn take0 cats0.
have gA c : nth 0 [seq c * a | a <- At] 0 = c * nth 0 At 0 by rewrite (nth_map 0) ?sA.
have pA c : part [seq c * a | a <- At] x 0 N.+1 = c * part At x 0 N.+1.
  rewrite /part mulr_sumr; apply: eq_big_nat => i /andP[_ hi]; by rewrite (nth_map 0) ?sA // mulrA.
have sAc c : size [seq c * a | a <- At] = N.+1 by rewrite size_map.
rewrite !(vget_nth 0); last 4 first.
- by rewrite eHq !size_map size_powers.
- by rewrite eCq !size_map sA.
- by rewrite size_map sA.
- by rewrite size_map sAc.
rewrite /= eCq (part_multiexp _ sA h4) !(part_multiexp _ (sAc _) h4) !pA !gA.
rewrite h3 (multiexp_iota _ _ ni_N h4).
rewrite {1}/batch_exp (nth_map 0) ?sAc // gA {1}/batch_exp (nth_map 0) ?sA // {1}/batch_exp (nth_map 0) ?sAc // gA.
have -> : multiexp Hq (sw_H w) = (Z * gamma ^+ 2 * (Poly (sw_H w)).[t]) *: G.
  have -> : Hq = batch_exp ((Z * gamma ^+ 2) *: G) (powers t m.+1).
    by rewrite eHq /batch_exp -map_comp; apply: eq_map => y /=; rewrite scalerA mulrC.
  have := multiexp_powersN ((Z * gamma ^+ 2) *: G) t h5; rewrite !take_oversize ?size_map ?size_powers ?h5 // => ->.
  by rewrite scalerA mulrC.
have -> : nth 0 Hq 0 = (Z * gamma ^+ 2) *: G.
  rewrite eHq /batch_exp (nth_map 0) ?size_map ?size_powers // (nth_map 0) ?size_powers //.
  by rewrite nth_powers // expr0 mulr1.
have -> : \sum_(ni.+1 <= i < N.+1) gamma * (gamma * nth 0 Ct i + s * nth 0 At i) * nth 0 (1 :: x) i
  = gamma * (gamma * part Ct x ni.+1 N.+1 + s * part At x ni.+1 N.+1).
  rewrite /part mulrDr !mulr_sumr -big_split; apply: eq_big_nat => i _.
  by move: (nth _ _ _) (nth _ _ _) (nth _ _ _) => p1 q1 w1 /=; fring F.
move: h6; rewrite -hA // -hC // -!(part_take _ tx sp) !part_splitS.
move: (part At x 0 ni.+1) (part At x ni.+1 _) (part Ct x 0 ni.+1) (part Ct x ni.+1 _) ((Poly (sw_H w)).[t]) => a0 a1 c0 c1 y.
move: (nth 0 At 0) => z; set Zt := zeval dom t => h6.
rewrite !scalerA -!scalerDl; congr (Some (SeProof _ _ _)); congr (_ *: _); try by fring F.
have {}h6 : y * Zt = (a0 + a1 + d1 * Zt) * (a0 + a1 + d1 * Zt) - (c0 + c1 + d2 * Zt) by rewrite h6.
have -> : Zt * gamma ^+ 2 * y = gamma ^+ 2 * (y * Zt) by fring F.
rewrite h6; fring F.
Qed.
End Se.
