(** The R1CS ppzkSNARK (PGHR13): the keys and the honest proof in closed form. *)
From mathcomp Require Import all_ssreflect all_algebra.
From Verif.Model Require Import Base LinearCombination ConstraintSystems Domain ArithmeticPrograms KnowledgeCommitment
  Groth16 OrderedMap Pghr.
From Verif.Spec Require Import LinearSpec GroupSpec.
From Verif.Proofs Require Import NatTac FieldTac LinearProofs DomainProofs ProgramProofs QapProofs KcProofs Groth16Proofs PermProofs.
From Verif.Props Require Import C02_R1csSemantics.
Set Implicit Arguments.
Unset Strict Implicit.
Unset Printing Implicit Defensive.
Import GRing.Theory.
Local Open Scope ring_scope.

Section KcGet.
Variables (F : fieldType) (T1 T2 : lmodType F).

Lemma kc_getE (b1 : T1) (b2 : T2) (c1 c2 : F) v k i :
  kc_get (KcVector (kc_support v) [seq kc_entry b1 b2 c1 c2 v i | i <- kc_support v] k) i = kc_entry b1 b2 c1 c2 v i.
Proof.
rewrite /kc_get /=; case: (boolP (i \in kc_support v)) => hi.
  by rewrite (nth_map 0%N) ?index_mem // nth_index.
rewrite nth_default; last by rewrite size_map memNindex.
have hz : nth 0 v i = 0.
  case: (ltnP i (size v)) => h; last by rewrite nth_default.
  by move: hi; rewrite mem_filter mem_iota /= h andbT negbK => /eqP.
by rewrite /kc_entry hz !mulr0 !scale0r.
Qed.
End KcGet.

Section Side.
Variables (F : fieldType) (T1 T2 : lmodType F).
Add Field Ff_pghrs : (@ffield_theory F).

(** One query together with its blinding term. *)
Lemma kc_side (b1 : T1) (b2 : T2) (c1 c2 : F) v x n d Z chunks : size v = n.+2 -> size x = n -> nth 0 v n.+1 = Z ->
  exists vec m, [/\ kc_batch_exp b1 b2 c1 c2 v chunks = Some vec,
    kc_multiexp_with_mixed_addition vec 1 n.+1 x = Some m
  & kc_add (kc_add (kc_get vec 0) (kc_mul d (kc_get vec n.+1))) m
    = ((c1 * (part v x 0 n.+1 + d * Z)) *: b1, (c2 * (part v x 0 n.+1 + d * Z)) *: b2)].
Proof.
move=> sv sx hZ; have := @kc_multiexp_batch _ _ _ b1 b2 c1 c2 v chunks 1 n.+1 x.
rewrite kc_batch_expE {1}/obnd => h; eexists; eexists; split; [reflexivity | apply: h; rewrite ?sx ?sv // |].
rewrite !kc_getE /kc_entry hZ /kc_add /kc_mul /= !scalerA -!scalerDl.
have -> : part v x 0 n.+1 = nth 0 v 0 + \sum_(1 <= i < n.+1) nth 0 v i * nth 0 x (i - 1).
  rewrite /part big_nat_recl //= mulr1 [in RHS]big_add1 /=; congr (_ + _).
  by apply: eq_bigr => i _; rewrite subn1.
by congr (_, _); congr (_ *: _); move: (\sum_(1 <= i < n.+1) _) (nth 0 v 0) => s a; fring F.
Qed.

Lemma part_eq (u v x y : seq F) lo hi : (forall i, (lo <= i < hi)%N -> nth 0 u i = nth 0 v i) ->
  (forall i, (lo <= i < hi)%N -> nth 0 (1 :: x) i = nth 0 (1 :: y) i) -> part u x lo hi = part v y lo hi.
Proof. by move=> h h'; apply: eq_big_nat => i hi'; rewrite h ?h'. Qed.

(** The assignment in which only variable [i] is one (none for [i = 0]). *)
Definition unit_w (n i : nat) : seq F := mkseq (fun j => (j.+1 == i)%:R) n.

Lemma inner_unit (u : seq F) n i : size u = n.+1 -> (i <= n)%N ->
  head 0 u + inner_product (behead u) (unit_w n i) = nth 0 u 0 + (if i == 0%N then 0 else nth 0 u i).
Proof.
case: u => // c u [su] hi /=; congr (_ + _).
rewrite (inner_productE su (size_mkseq _ _)) (eq_bigr (fun j : 'I_n => nth 0 u j * (j.+1 == i)%:R)); last first.
  by move=> j _; rewrite nth_mkseq.
case: i hi => [|i] hi /=; first by rewrite big1 // => j _; rewrite mulr0.
rewrite (bigD1 (Ordinal hi)) //= eqxx mulr1 big1 ?addr0 // => j; rewrite -val_eqE /= eqSS => /negbTE->.
by rewrite mulr0.
Qed.

Lemma part_headN (u x : seq F) n : size u = n.+1 -> size x = n ->
  head 0 u + inner_product (behead u) x = part u x 0 n.+1.
Proof.
case: u => // c u [su] sx; rewrite /part big_nat_recl //= mulr1; congr (_ + _).
by rewrite (inner_productE su sx) big_mkord.
Qed.

Lemma accumulate_part (g1 : T1) (u primary auxiliary : seq F) ni : size primary = ni -> (ni < size u)%N ->
  accumulate_chunk (head 0 (take ni.+1 u) *: g1) (batch_exp g1 (behead (take ni.+1 u))) primary
  = part u (primary ++ auxiliary) 0 ni.+1 *: g1.
Proof.
case: u => // c u sp /= su; rewrite /accumulate_chunk take_oversize; last by rewrite size_map size_takel // sp.
rewrite multiexp_scale size_takel // sp minnn -scalerDl; congr (_ *: _).
rewrite /part big_nat_recl //= mulr1 big_mkord; congr (_ + _); apply: eq_bigr => i _.
by rewrite nth_take // nth_cat sp ltn_ord.
Qed.

Lemma multiexp_powersN (g1 : T1) (t : F) (H : seq F) m : size H = m.+1 ->
  multiexp (take m.+1 (batch_exp g1 (powers t m.+1))) (take m.+1 H) = (Poly H).[t] *: g1.
Proof.
move=> sH; rewrite !take_oversize ?size_map ?size_powers ?sH //.
rewrite multiexp_scale size_powers sH minnn; congr (_ *: _).
rewrite (@horner_coef_wide _ m.+1); last by rewrite (leq_trans (size_Poly _)) // sH.
by apply: eq_bigr => i _; rewrite coef_Poly nth_powers // mulrC.
Qed.
End Side.

Section Pg.
Variables (F : fieldType) (G1 G2 GT : lmodType F).
Variable e : G1 -> G2 -> GT.
Add Field Ff_pghr : (@ffield_theory F).
Variables (cs : r1cs F) (dom : seq F) (gen : F).
Hypothesis wf : r1cs_wf cs.
Hypothesis udom : uniq dom.
Hypothesis ldom : (r_num_constraints cs + r_num_inputs cs + 1 <= size dom)%N.
Notation scs := (swap_AB_if_beneficial cs).
Notation n := (r_num_variables cs).
Notation ni := (r_num_inputs cs).
Notation m := (size dom).
Variables (asserts : bool) (t alphaA alphaB alphaC rA rB beta gamma : F) (g1 : G1) (g2 : G2) (chunks : nat).

(** The satisfied QAP with blinding. *)
Lemma sat_main_d q (w : qap_witness F) x d1 d2 d3 : size (qe_At q) = n.+1 -> size (qe_Bt q) = n.+1 -> size (qe_Ct q) = n.+1 ->
  qe_num_inputs q = ni -> qe_num_variables q = n -> qe_Ht q = powers t m.+1 -> qe_Zt q = zeval dom t -> qe_degree q = m ->
  qw_ABCs w = x -> size x = n -> qw_d1 w = d1 -> qw_d2 w = d2 -> qw_d3 w = d3 -> size (qw_H w) = m.+1 ->
  qap_eval_is_satisfied q w ->
  [/\ n = qw_num_variables w, m = qw_degree w, ni = qw_num_inputs w &
   (part (qe_At q) x 0 n.+1 + d1 * zeval dom t) * (part (qe_Bt q) x 0 n.+1 + d2 * zeval dom t)
   - (part (qe_Ct q) x 0 n.+1 + d3 * zeval dom t) = (Poly (qw_H w)).[t] * zeval dom t].
Proof.
move=> sA sB sC qi qv qH qZ qd e2 sx e3 e4 e5 e7; rewrite /qap_eval_is_satisfied.
rewrite qv qd qi e2 sx eqxx sA sB sC eqxx qH qZ e7 eqxx e3 e4 e5.
have := size_powers t m.+1; have := @inner_powers _ t m.+1 _ e7.
move: (powers t m.+1) => Ht hH sH; rewrite sH eqxx /=.
case: (eqVneq n _) => //= wn; case: (eqVneq m _) => //= wm; case: (eqVneq ni _) => //= wi.
case: (zeval dom t != _) => //=.
rewrite -!(part_head _ sx) // add0r hH; case: eqP => // h _; split=> //.
by rewrite ![_ + inner_product _ _ + _]addrAC h.
Qed.

Lemma ni_n' : (ni <= n)%N. Proof. exact: leq_addr. Qed.

Definition ic_ok (q : qap_eval F) := all (fun c => c != 0) [seq nth 0 (rcons (qe_At q) (qe_Zt q)) i | i <- iota 0 ni.+1].

Lemma nth_rcons_lt (u : seq F) z k i : size u = k -> (i < k)%N -> nth 0 (rcons u z) i = nth 0 u i.
Proof. by move=> su hi; rewrite nth_rcons su hi. Qed.

Lemma nth_rcons_eq (u : seq F) z k : size u = k -> nth 0 (rcons u z) k = z.
Proof. by move=> su; rewrite nth_rcons su ltnn eqxx. Qed.

Lemma multiexp_powers (H : seq F) : size H = m.+1 ->
  multiexp (take m.+1 (batch_exp g1 (powers t m.+1))) (take m.+1 H) = (Poly H).[t] *: g1.
Proof.
move=> sH; rewrite !take_oversize ?size_map ?size_powers ?sH //.
rewrite multiexp_scale size_powers sH minnn; congr (_ *: _).
rewrite (@horner_coef_wide _ m.+1); last by rewrite (leq_trans (size_Poly _)) // sH.
by apply: eq_bigr => i _; rewrite coef_Poly nth_powers // mulrC.
Qed.

Lemma accumulate_rA (u primary auxiliary : seq F) (c : F) : size primary = ni ->
  accumulate_chunk ((c * nth 0 u 0) *: g1) (batch_exp g1 [seq c * nth 0 u i | i <- iota 1 ni]) primary
  = (c * part u (primary ++ auxiliary) 0 ni.+1) *: g1.
Proof.
move=> sp; rewrite /accumulate_chunk take_oversize; last by rewrite !size_map size_iota sp.
rewrite multiexp_scale size_map size_iota sp minnn -scalerDl; congr (_ *: _).
rewrite /part big_nat_recl //= mulr1 mulrDr big_mkord; congr (_ + _).
rewrite mulr_sumr; apply: eq_bigr => i _.
by rewrite (nth_map 0%N) ?size_iota // nth_iota // add1n nth_cat sp ltn_ord mulrA.
Qed.

Hypothesis gen0 : gen != 0.
Hypothesis genz : forall x, x \in dom -> gen * x \notin dom.
Local Notation Z := (zeval dom t).

Lemma pghr_closed : exists q,
  [/\ qap_instance_map_with_evaluation dom scs t = Some q,
      isSome (pghr_generator asserts dom cs t alphaA alphaB alphaC rA rB beta gamma g1 g2 chunks) = (asserts ==> ic_ok q)
    & forall pk vk, pghr_generator asserts dom cs t alphaA alphaB alphaC rA rB beta gamma g1 g2 chunks = Some (pk, vk) ->
   [/\ vk = PghrVerificationKey (alphaA *: g2) (alphaB *: g1) (alphaC *: g2) (gamma *: g2) ((gamma * beta) *: g1)
          ((gamma * beta) *: g2) ((rA * rB * Z) *: g2) (hv_IC_first vk) (hv_IC_rest vk),
       size (hv_IC_rest vk) = ni,
       forall primary auxiliary, size primary = ni -> 
         accumulate_chunk (hv_IC_first vk) (hv_IC_rest vk) primary
         = (rA * part (qe_At q) (primary ++ auxiliary) 0 ni.+1) *: g1
     & forall primary auxiliary d1 d2 d3,
     size primary = ni -> (size primary + size auxiliary)%N = n ->
     r_is_satisfied cs primary auxiliary = Some true ->
     let x := primary ++ auxiliary in
     let A := part (qe_At q) x ni.+1 n.+1 + d1 * Z in
     let Af := part (qe_At q) x 0 n.+1 + d1 * Z in
     let B := part (qe_Bt q) x 0 n.+1 + d2 * Z in
     let C := part (qe_Ct q) x 0 n.+1 + d3 * Z in
     exists h, Af * B - C = h * Z /\
     pghr_prover dom gen pk primary auxiliary d1 d2 d3 =
     Some (PghrProof ((rA * A) *: g1, (rA * alphaA * A) *: g1) ((rB * B) *: g2, (rB * alphaB * B) *: g1)
        ((rA * rB * C) *: g1, (rA * rB * alphaC * C) *: g1) (h *: g1)
        ((beta * (rA * Af + rB * B + rA * rB * C)) *: g1))]].
Proof.
have [h1 h2 h3 h4] := scs_basic wf.
have ld : (r_num_constraints scs + r_num_inputs scs + 1 <= size dom)%N by rewrite h1 h3.
have [q [eq [[sA sB sC] [qi qv qH qZ qd]]]] := qap_shape wf ldom t.
have lni := ni_n'.
exists q; rewrite /pghr_generator eq; cbv zeta; split=> //.
  by rewrite {1}/obnd !kc_batch_expE /obnd /ic_ok qi; case: ifP.
move=> pk vk; rewrite {1}/obnd; case: ifP => // _; rewrite !qi !qv !qZ.
set At' := nseq _ _ ++ _; set Bt := rcons (qe_Bt q) _; set Ct := rcons (qe_Ct q) _; set Kt := (_ ++ [:: _; _; _]).
have eK : Kt = [seq beta * (rA * nth 0 (qe_At q) i + rB * nth 0 (qe_Bt q) i + rA * rB * nth 0 (qe_Ct q) i)
    | i <- iota 0 n.+1] ++ [:: beta * rA * Z; beta * rB * Z; beta * (rA * rB) * Z].
  rewrite /Kt; congr (_ ++ _).
  by apply/eq_in_map => i; rewrite mem_iota add0n /= => hi; rewrite !(nth_rcons_lt _ _ hi).
have sA' : size At' = n.+2.
  by rewrite size_cat size_nseq size_drop size_rcons sA; slia.
have sB' : size Bt = n.+2 by rewrite size_rcons sB.
have sC' : size Ct = n.+2 by rewrite size_rcons sC.
have nA' : nth 0 At' n.+1 = Z.
  by rewrite nth_cat size_nseq ltnS ltnNge lni /= nth_drop subnKC // (nth_rcons_eq _ sA).
have nB' : nth 0 Bt n.+1 = Z by apply: nth_rcons_eq.
have nC' : nth 0 Ct n.+1 = Z by apply: nth_rcons_eq.
move=> H.
have pA x : part At' x 0 n.+1 = part (qe_At q) x ni.+1 n.+1.
  rewrite /part (@big_cat_nat _ _ _ ni.+1) //= big1_seq ?add0r.
    apply: eq_big_nat => i /andP[l1 l2]; rewrite nth_cat size_nseq ltnNge l1 /= nth_drop subnKC //.
    by rewrite (nth_rcons_lt _ sA).
  move=> i; rewrite mem_index_iota /= => hi; by rewrite nth_cat size_nseq hi nth_nseq hi mul0r.
have pB x : part Bt x 0 n.+1 = part (qe_Bt q) x 0 n.+1.
  by apply: part_eq => // i /andP[_ hi]; rewrite (nth_rcons_lt _ sB).
have pC x : part Ct x 0 n.+1 = part (qe_Ct q) x 0 n.+1.
  by apply: part_eq => // i /andP[_ hi]; rewrite (nth_rcons_lt _ sC).
clearbody Kt At' Bt Ct; move: H; rewrite !kc_batch_expE /obnd => -[epk evk].
have sIC : size (hv_IC_rest vk) = ni by rewrite -evk /= !size_map size_iota.
split=> //.
- by rewrite -evk.
- move=> primary auxiliary sp; rewrite -evk /=.
  rewrite -(@accumulate_rA (qe_At q) primary auxiliary rA sp); congr accumulate_chunk.
    by rewrite (nth_rcons_lt _ sA).
  congr batch_exp; apply/eq_in_map => i; rewrite mem_iota add1n => /andP[i1 i2].
  case: i i1 i2 => // i _ i2; rewrite /= (nth_map 0%N) ?size_iota // nth_iota // add1n (nth_rcons_lt _ sA) //.
  by rewrite (leq_trans i2).
move=> primary auxiliary d1 d2 d3 sp sz sat; cbv zeta.
set x := primary ++ auxiliary.
have sx : size x = n by rewrite size_cat.
have [_ _ _ _ ss] := scs_facts wf sz.
have hsat : forall k, k \in r_constraints scs -> denote (ra k) x * denote (rb k) x = denote (rc k) x.
  have [||b [eb hb]] := @C02_r1cs_is_satisfied _ scs primary auxiliary h4; rewrite ?h1 ?h2 //.
  by move: eb; rewrite ss sat => -[eb]; apply: hb.1; rewrite -eb.
have [|w [e1 e2 [e3 e4 e5 e6 e7] e8 e9]] := @qap_complete _ scs h4 dom udom ld gen gen0 genz primary auxiliary d1 d2 d3 _ hsat.
  by rewrite h2.
have [q' [eq' hs]] := e9 t; move: eq'; rewrite eq => -[eq']; rewrite -eq' {q' eq'} in hs.
have [wn wm wi main] := sat_main_d sA sB sC qi qv qH qZ qd e2 sx e3 e4 e5 e7 hs.
exists ((Poly (qw_H w)).[t]); split=> //.
have [vA [mA [eA1 eA2 eA3]]] := kc_side g1 g1 rA (rA * alphaA) d1 chunks sA' sx nA'.
have [vB [mB [eB1 eB2 eB3]]] := kc_side g2 g1 rB (rB * alphaB) d2 chunks sB' sx nB'.
have [vC [mC [eC1 eC2 eC3]]] := kc_side g1 g1 (rA * rB) (rA * rB * alphaC) d3 chunks sC' sx nC'.
move: eA1 eB1 eC1; rewrite !kc_batch_expE => -[eA1] [eB1] [eC1].
have sK : size (batch_exp g1 Kt) = (n + 4)%N by rewrite size_map eK size_cat size_map size_iota /=; slia.
have nK k : (k < 3)%N -> vget (batch_exp g1 Kt) (n.+1 + k) = Some (nth 0 [:: beta * rA * Z; beta * rB * Z; beta * (rA * rB) * Z] k *: g1).
  move=> hk; rewrite (vget_nth 0) ?sK; last by slia.
  congr Some; rewrite (nth_map 0); last by rewrite -(size_map (fun x => x *: g1)) sK; slia.
  by rewrite eK nth_cat size_map size_iota ltnNge leq_addr /= addKn.
have nK0 : vget (batch_exp g1 Kt) 0 = Some (nth 0 Kt 0 *: g1).
  by rewrite (vget_nth 0) ?sK ?addnS // (nth_map 0) // -(size_map (fun x => x *: g1)) sK addnS.
have nK1 : vget (batch_exp g1 Kt) n.+1 = Some ((beta * rA * Z) *: g1) by rewrite -[n.+1]addn0 nK.
have nK2 : vget (batch_exp g1 Kt) n.+2 = Some ((beta * rB * Z) *: g1) by rewrite -[n.+2]addn1 nK.
have nK3 : vget (batch_exp g1 Kt) n.+3 = Some ((beta * (rA * rB) * Z) *: g1) by rewrite -[n.+3]addn2 nK.
rewrite -epk /pghr_prover /= e1 /= -wn -wm e2 -/x e3 e4 e5 eA1 eB1 eC1 nK0 nK1 nK2 nK3 eA2 eB2 eC2 /=.
rewrite eA3 eB3 eC3 pA pB pC.
rewrite add0r qH multiexp_powers //; congr (Some (PghrProof _ _ _ _ _)).
rewrite !scalerA -!scalerDl.
have -> : take n (drop 1 (batch_exp g1 Kt)) = batch_exp g1 (take n (behead Kt)).
  by rewrite /batch_exp map_take drop1; case: (Kt).
rewrite [take n x]take_oversize ?sx // multiexp_scale -scalerDl.
have -> : minn (size (take n (behead Kt))) (size x) = n.
  by rewrite size_takel ?sx ?minnn // size_behead -(size_map (fun x => x *: g1)) sK; slia.
congr (_ *: _).
have eS : nth 0 Kt 0 + \sum_(i < n) nth 0 (take n (behead Kt)) i * nth 0 x i
   = beta * (rA * part (qe_At q) x 0 n.+1 + rB * part (qe_Bt q) x 0 n.+1 + rA * rB * part (qe_Ct q) x 0 n.+1).
  have -> : beta * (rA * part (qe_At q) x 0 n.+1 + rB * part (qe_Bt q) x 0 n.+1 + rA * rB * part (qe_Ct q) x 0 n.+1)
    = \sum_(0 <= i < n.+1) nth 0 Kt i * nth 0 (1 :: x) i.
    rewrite /part !mulr_sumr -!big_split mulr_sumr; apply: eq_big_nat => i /andP[_ hi].
    rewrite eK nth_cat size_map size_iota hi (nth_map 0%N) ?size_iota // nth_iota //.
    by move: (nth _ _ _) (nth _ _ _) (nth _ _ _) (nth _ _ _) => a b c d /=; fring F.
  rewrite big_nat_recl // mulr1 big_mkord; congr (_ + _); apply: eq_bigr => i _.
  by rewrite nth_take // nth_behead.
have -> : nth 0 Kt 0 + d1 * (beta * rA * Z) + d2 * (beta * rB * Z) + d3 * (beta * (rA * rB) * Z)
   + \sum_(i < n) nth 0 (take n (behead Kt)) i * nth 0 x i
  = (nth 0 Kt 0 + \sum_(i < n) nth 0 (take n (behead Kt)) i * nth 0 x i)
    + (d1 * (beta * rA * Z) + d2 * (beta * rB * Z) + d3 * (beta * (rA * rB) * Z)).
  by move: (nth _ _ _) (\sum_(_ < _) _) => a b; fring F.
rewrite eS; move: (part _ _ _ _) (part _ _ _ _) (part _ _ _ _) => a b c; fring F.
Qed.

Lemma part_split (u x : seq F) : part u x 0 n.+1 = part u x 0 ni.+1 + part u x ni.+1 n.+1.
Proof. by rewrite /part (@big_cat_nat _ _ _ ni.+1) //= ltnS ni_n'. Qed.
End Pg.

(** The coefficients of the public inputs are values of non-zero polynomials. *)
Section Inputs.
Variable F : fieldType.
Variables (cs : r1cs F) (dom : seq F).
Hypothesis wf : r1cs_wf cs.
Hypothesis udom : uniq dom.
Hypothesis ldom : (r_num_constraints cs + r_num_inputs cs + 1 <= size dom)%N.
Notation n := (r_num_variables cs).
Notation ni := (r_num_inputs cs).
Notation nc := (r_num_constraints cs).
Notation m := (size dom).

Definition input_poly (i : nat) : {poly F} :=
  polyA cs dom (unit_w F n i) - (if i == 0%N then 0 else polyA cs dom (unit_w F n 0)).

Lemma input_polyE t q i : qap_instance_map_with_evaluation dom cs t = Some q -> (i <= ni)%N ->
  nth 0 (qe_At q) i = (input_poly i).[t].
Proof.
rewrite /qap_instance_map_with_evaluation.
have [At0 [At [-> /= -> sA hA]]] := A_eval wf ldom t.
have [Bt [-> sB _]] := side_eval ldom t (side_rb wf).
have [Ct [-> sC _]] := side_eval ldom t (side_rc wf).
move=> [<-] /= hi; have hin : (i <= n)%N by apply: leq_trans hi (leq_addr _ _).
rewrite /input_poly hornerD hornerN -(hA _ (size_mkseq _ _)) (inner_unit sA hin).
case: eqP => [->|_]; first by rewrite horner0 subr0 addr0.
by rewrite -(hA _ (size_mkseq _ _)) (inner_unit sA) //= addr0 addrC addKr.
Qed.

Lemma input_poly_neq0 i : (i <= ni)%N -> input_poly i != 0.
Proof.
move=> hi; apply/eqP => h0; have /eqP := congr1 (fun p : {poly F} => p.[nth 0 dom (nc + i)]) h0.
have lt : (nc + i < m)%N by rewrite (leq_trans _ ldom) // addn1 ltnS leq_add2l.
have hin : (i <= n)%N by apply: leq_trans hi (leq_addr _ _).
rewrite /input_poly hornerD hornerN horner0 (polyA_at cs udom _ lt) /valA ltnNge leq_addr /= leq_add2l hi addKn.
case: i {h0} lt hi hin => [|i] lt hi hin /=; first by rewrite horner0 subr0 oner_eq0.
rewrite (polyA_at cs udom _ lt).
rewrite /valA ltnNge leq_addr /= leq_add2l hi addKn /var_value /= !nth_mkseq //= eqxx subr0.
by rewrite oner_eq0.
Qed.

Lemma size_input_poly i : (size (input_poly i) <= m)%N.
Proof.
have h w : (size (polyA cs dom w) <= m)%N by rewrite (leq_trans (size_Poly _)) // size_inverse_fft.
rewrite /input_poly (leq_trans (size_add _ _)) // geq_max h size_opp; case: ifP => _ /=; rewrite ?size_poly0 //.
Qed.

(** All but few evaluation points make every input coefficient non-zero. *)
Lemma inputs_nonzero ts : uniq ts ->
  (forall t q, t \in ts -> qap_instance_map_with_evaluation dom cs t = Some q ->
     ~~ all (fun c => c != 0) [seq nth 0 (qe_At q) i | i <- iota 0 ni.+1]) ->
  (size ts <= ni.+1 * m.-1)%N.
Proof.
move=> uts h.
have n0 : \prod_(i < ni.+1) input_poly i != 0.
  by apply/prodf_neq0 => i _; apply: input_poly_neq0; rewrite -ltnS.
have r0 : all (root (\prod_(i < ni.+1) input_poly i)) ts.
  apply/allP => t ht.
  have [q [eq [[sA sB sC] _]]] : exists q, qap_instance_map_with_evaluation dom cs t = Some q /\
     [/\ size (qe_At q) = n.+1, True & True] /\ True.
    rewrite /qap_instance_map_with_evaluation.
    have [At0 [At [-> /= -> sA hA]]] := A_eval wf ldom t.
    have [Bt [-> sB _]] := side_eval ldom t (side_rb wf).
    have [Ct [-> sC _]] := side_eval ldom t (side_rc wf).
    by eexists; split; [reflexivity|].
  have /allPn [c /mapP[i]] := h t q ht eq.
  rewrite mem_iota add0n /= => hi -> /negPn; rewrite (input_polyE eq hi) => /eqP h0.
  by rewrite rootE horner_prod (bigD1 (Ordinal hi)) //= h0 mul0r.
have := max_poly_roots n0 r0 uts; rewrite size_prod; last by move=> i _; apply: input_poly_neq0; rewrite -ltnS.
rewrite card_ord => /leq_trans h1.
have h2 : (\sum_(i < ni.+1) size (input_poly i) <= ni.+1 * m)%N.
  have -> : (ni.+1 * m = \sum_(i < ni.+1) m)%N by rewrite sum_nat_const card_ord.
  by apply: leq_sum => i _; apply: size_input_poly.
have hm : (0 < m)%N by rewrite (leq_trans _ ldom) // addn1.
have h3 : (ni.+1 * m = ni.+1 * m.-1 + ni.+1)%N by rewrite -{1}(prednK hm) mulnS addnC.
have := h1 ((\sum_(i < ni.+1) size (input_poly i)).+1 - ni.+1)%N (leqnn _).
rewrite subSS => h4; rewrite -ltnS (leq_trans h4) // leq_subLR (leq_trans h2) // h3.
by rewrite addnC addSnnS.
Qed.
End Inputs.
