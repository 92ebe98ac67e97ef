(** The USCS ppzkSNARK: the keys and the honest proof in closed form, linear combinations of the key. *)
From mathcomp Require Import all_ssreflect all_algebra.
From Verif.Model Require Import Base LinearCombination ConstraintSystems Domain ArithmeticPrograms KnowledgeCommitment
  Groth16 OrderedMap UscsPpzksnark.
From Verif.Spec Require Import LinearSpec GroupSpec AlgebraicSpec.
From Verif.Proofs Require Import NatTac FieldTac LinearProofs DomainProofs ProgramProofs SspProofs KcProofs Groth16Proofs
  PermProofs PghrProofs.
From Verif.Props Require Import C02_R1csSemantics.
Set Implicit Arguments.
Unset Strict Implicit.
Unset Printing Implicit Defensive.
Import GRing.Theory.
Local Open Scope ring_scope.

(** A product of non-zero polynomials of size at most [m] has few roots. *)
Lemma roots_few (F : fieldType) (p : nat -> {poly F}) k m (ts : seq F) : (0 < m)%N -> uniq ts ->
  (forall i, (i < k)%N -> p i != 0) -> (forall i, (i < k)%N -> size (p i) <= m)%N ->
  (forall t, t \in ts -> exists2 i, (i < k)%N & (p i).[t] = 0) -> (size ts <= k * m.-1)%N.
Proof.
move=> hm uts p0 sp h.
have n0 : \prod_(i < k) p i != 0 by apply/prodf_neq0 => i _; apply: p0.
have r0 : all (root (\prod_(i < k) p i)) ts.
  apply/allP => t /h [i hi h0].
  by rewrite rootE horner_prod (bigD1 (Ordinal hi)) //= h0 mul0r.
have := max_poly_roots n0 r0 uts; rewrite size_prod; last by move=> i _; apply: p0.
rewrite card_ord => /leq_trans h1.
have h2 : (\sum_(i < k) size (p i) <= k * m)%N.
  have -> : (k * m = \sum_(i < k) m)%N by rewrite sum_nat_const card_ord.
  by apply: leq_sum => i _; apply: sp.
have h3 : (k * m = k * m.-1 + k)%N by rewrite -{1}(prednK hm) mulnS addnC.
have := h1 ((\sum_(i < k) size (p i)).+1 - k)%N (leqnn _).
move: h2; rewrite h3; move: (\sum_(i < k) size (p i))%N (k * m.-1)%N (size ts) => S a b; clear; slia.
Qed.

(** A quadratic with more than two roots. *)
Lemma quad_zero (F : fieldType) (q0 q1 q2 : F) l : uniq l -> (2 < size l)%N ->
  (forall a, a \in l -> q0 + q1 * a + q2 * a ^+ 2 = 0) -> [/\ q0 = 0, q1 = 0 & q2 = 0].
Proof.
move=> ul ll h; pose p := Poly [:: q0; q1; q2].
have sp : (size p <= 3)%N by apply: size_Poly.
suff p0 : p = 0.
  have hc i : nth 0 [:: q0; q1; q2] i = 0 by rewrite -coef_Poly -/p p0 coef0.
  by split; [exact: (hc 0%N) | exact: (hc 1%N) | exact: (hc 2%N)].
apply/eqP/negPn/negP => p0.
have hr : all (root p) l.
  apply/allP => a /h ha; rewrite rootE (horner_coef_wide _ sp) !big_ord_recl big_ord0 !coef_Poly /= expr0 expr1 mulr1 addr0.
  by rewrite addrA ha.
by have := leq_trans (max_poly_roots p0 hr ul) sp; rewrite ltnNge ll.
Qed.

(** Linear combinations of a list. *)
Section Lin.
Variables (F : fieldType) (V : lmodType F).

Lemma lin_cat c (s1 s2 : seq V) : lin c (s1 ++ s2) = lin c s1 + lin (drop (size s1) c) s2.
Proof.
rewrite /lin size_cat big_split_ord /=; congr (_ + _); apply: eq_bigr => i _; first by rewrite nth_cat ltn_ord.
by rewrite nth_cat ltnNge leq_addr /= addKn nth_drop.
Qed.

Lemma lin_cons c x (s : seq V) : lin c (x :: s) = nth 0 c 0 *: x + lin (behead c) s.
Proof. by rewrite -cat1s lin_cat /= drop1 /lin big_ord_recl big_ord0 addr0. Qed.
End Lin.

Lemma lin_batch (F : fieldType) (V : lmodType F) (b : V) (c : seq F) (u : seq F) :
  lin c (batch_exp b u) = lin c (u : seq (GRing.regular_lmodType F)) *: b.
Proof.
by rewrite /lin size_map scaler_suml; apply: eq_bigr => i _; rewrite (nth_map 0) // scalerA.
Qed.

Lemma lin_batchc (F : fieldType) (V : lmodType F) (b : V) (a : F) (c : seq F) (u : seq F) :
  lin c (batch_exp_with_coeff b a u) = (a * lin c (u : seq (GRing.regular_lmodType F))) *: b.
Proof.
rewrite /lin size_map mulr_sumr scaler_suml; apply: eq_bigr => i _; rewrite (nth_map 0) // scalerA.
by congr (_ *: _); rewrite mulrCA.
Qed.

Lemma lin_horner (F : fieldType) (c : seq F) (ps : seq {poly F}) t :
  lin c ([seq p.[t] | p <- ps] : seq (GRing.regular_lmodType F)) = (lin c ps).[t].
Proof.
rewrite /lin size_map horner_sum; apply: eq_bigr => i _; rewrite (nth_map 0) // hornerZ //.
Qed.

Lemma size_lin (F : fieldType) (c : seq F) (ps : seq {poly F}) m :
  all (fun p : {poly F} => (size p <= m)%N) ps -> (size (lin c ps) <= m)%N.
Proof.
move=> /allP h; rewrite /lin; elim/big_ind: _ => [|p q hp hq|i _]; first by rewrite size_poly0.
  by rewrite (leq_trans (size_add _ _)) // geq_max hp.
by rewrite (leq_trans (size_scale_leq _ _)) // h // mem_nth.
Qed.

Local Arguments powers : simpl never.

Section Us.
Variables (F : fieldType) (G1 G2 GT : lmodType F).
Variable e : G1 -> G2 -> GT.
Add Field Ff_uscss : (@ffield_theory F).
Variables (cs : uscs F) (dom : seq F).
Hypothesis wf : uscs_wf cs.
Hypothesis udom : uniq dom.
Hypothesis m_gt0 : (0 < size dom)%N.
Hypothesis ldom : (size (u_constraints cs) <= size dom)%N.
Notation n := (u_num_variables cs).
Notation ni := (u_num_inputs cs).
Notation nc := (size (u_constraints cs)).
Notation m := (size dom).
Notation con i := (nth [::] (u_constraints cs) i).

Lemma uni_n : (ni <= n)%N. Proof. exact: leq_addr. Qed.

(** The polynomial of variable [i]. *)
Definition vpoly (i : nat) : {poly F} :=
  polyV cs dom (unit_w F n i) - (if i == 0%N then 0 else polyV cs dom (unit_w F n 0)).

Lemma size_vpoly i : (size (vpoly i) <= m)%N.
Proof.
have h w : (size (polyV cs dom w) <= m)%N by apply: size_inv_poly.
rewrite /vpoly (leq_trans (size_add _ _)) // geq_max h size_opp; case: ifP => _ /=; rewrite ?size_poly0 //.
Qed.

Lemma denote_unit l i : vars_in l n -> (i <= n)%N ->
  denote l (unit_w F n i) = coef_of l 0 + (if i == 0%N then 0 else coef_of l i).
Proof.
move=> hv hi; rewrite (denote_coef _ hv) big_ord_recl /= {1}/var_value /= mulr1; congr (_ + _).
have hj (j : 'I_n) : var_value (unit_w F n i) (bump 0 j) = (j.+1 == i)%:R by rewrite /var_value /= /unit_w nth_mkseq.
case: i hi hj => [|i] hi hj; first by rewrite big1 // => j _; rewrite hj mulr0.
rewrite (bigD1 (Ordinal hi) isT) (hj (Ordinal hi)) /= eqxx mulr1 big1 ?addr0 //.
move=> j hne; rewrite hj; case: eqP => [[E]|_]; last by rewrite mulr0.
by case/eqP: hne; apply: val_inj.
Qed.

Lemma vpoly_at i j : (i <= n)%N -> (j < m)%N ->
  (vpoly i).[nth 0 dom j] = if (j < nc)%N then coef_of (con j) i else (i == 0%N)%:R.
Proof.
move=> hi hj; rewrite /vpoly hornerD hornerN polyV_at // /valV.
case: ltnP => h; last first.
  by case: eqP => _; rewrite ?horner0 ?subr0 // polyV_at // /valV ltnNge h subrr.
have hv : vars_in (con j) n by apply: wf; apply: mem_nth.
rewrite denote_unit //; case: eqP => [->|_]; first by rewrite horner0 subr0 addr0.
by rewrite polyV_at // /valV h denote_unit //= addr0 addrC addKr.
Qed.

(** Variable [i] has a coefficient that is not zero. *)
Definition occurs i := (exists2 j, (j < nc)%N & coef_of (con j) i != 0) \/ (i = 0%N /\ (nc < m)%N).

Lemma vpoly_neq0 i : (i <= n)%N -> occurs i -> vpoly i != 0.
Proof.
move=> hi; case=> [[j hj h]|[-> h]]; apply/eqP => h0.
  have := vpoly_at hi (leq_trans hj ldom).
  by rewrite hj h0 horner0 => E; rewrite -E eqxx in h.
have := @vpoly_at 0 nc isT h; rewrite ltnn h0 horner0 /= => /esym/eqP; by rewrite oner_eq0.
Qed.

Lemma vpoly_eq0 i : (i <= n)%N -> i != 0%N -> (forall j, (j < nc)%N -> coef_of (con j) i = 0) -> vpoly i = 0.
Proof.
move=> hi i0 h; apply/eqP; apply/negPn/negP => n0.
suff h0 : all (root (vpoly i)) dom by have := max_poly_roots n0 h0 udom; rewrite ltnNge size_vpoly.
apply/allP => x /(nthP 0) [j hj <-]; rewrite rootE vpoly_at // (negPf i0).
by case: ltnP => // hj'; rewrite h.
Qed.

Lemma ssp_inst t : exists Vt, [/\ ssp_instance_map_with_evaluation dom cs t
    = Some (SspEval n m ni dom t Vt (powers t m.+1) (zeval dom t)), Vt = [seq (vpoly i).[t] | i <- iota 0 n.+1]
  & forall w, size w = n -> part Vt w 0 n.+1 = (polyV cs dom w).[t]].
Proof.
rewrite /ssp_instance_map_with_evaluation; set u := evaluate_all_lagrange_polynomials _ _.
have hv := @V_vars _ cs wf dom u.
have [Vt [E sV hV]] := run_adds_zero (vars_lt hv).
have hV' w (sw : size w = n) : head 0 Vt + inner_product (behead Vt) w = (polyV cs dom w).[t].
  by rewrite (ans_denote sV sw hV hv) V_denote // polyV_horner.
exists Vt; rewrite E {1}/obnd; split=> //; last by move=> w sw; rewrite -hV' // (part_headN sV).
apply: (@eq_from_nth _ 0); first by rewrite size_map size_iota.
move=> i; rewrite sV => hi; rewrite (nth_map 0%N) ?size_iota // nth_iota // add0n.
rewrite /vpoly hornerD hornerN -(hV' _ (size_mkseq _ _)) (inner_unit sV) //.
case: eqP => [->|_]; first by rewrite horner0 subr0 addr0.
by rewrite -(hV' _ (size_mkseq _ _)) (inner_unit sV) //= addr0 addrC addKr.
Qed.

Variables (asserts : bool) (t alpha tilde : F) (g1 : G1) (g2 : G2).
Local Notation Z := (zeval dom t).

Lemma uscs_genE Vt : ssp_instance_map_with_evaluation dom cs t
    = Some (SspEval n m ni dom t Vt (powers t m.+1) Z) ->
  size Vt = n.+1 ->
  uscs_generator asserts dom cs t alpha tilde g1 g2 =
  if asserts ==> all (fun c => c != 0) (take ni.+1 Vt) then
    Some (UscsProvingKey (batch_exp g1 (drop ni.+1 (rcons Vt Z))) (batch_exp_with_coeff g1 alpha (drop ni.+1 (rcons Vt Z)))
            (batch_exp g1 (powers t m.+1)) (batch_exp g2 (rcons Vt Z)) cs,
          UscsVerificationKey (tilde *: g2) ((alpha * tilde) *: g2) (Z *: g2)
            (head 0 (take ni.+1 Vt) *: g1) (batch_exp g1 (behead (take ni.+1 Vt))))
  else None.
Proof.
move=> h sV; rewrite /uscs_generator h {1}/obnd; cbv zeta; rewrite [pe_num_inputs _]/= [pe_Vt _]/= [pe_Zt _]/= [pe_Ht _]/=.
have -> : take ni.+1 (rcons Vt Z) = take ni.+1 Vt; last by [].
by rewrite -cats1 takel_cat // sV ltnS uni_n.
Qed.

(** The exponents of the elements of G1 in the keys, as polynomials in the evaluation point. *)
Definition vlist : seq {poly F} := mkseq vpoly n.+1 ++ [:: zpoly dom].
Definition plist (a : F) : seq {poly F} :=
  drop ni.+1 vlist ++ [seq a *: p | p <- drop ni.+1 vlist] ++ mkseq (fun i => 'X^i) m.+1 ++ take ni.+1 vlist.

Lemma size_plist a : all (fun p : {poly F} => (size p <= m.+1)%N) (plist a).
Proof.
have hv : all (fun p : {poly F} => (size p <= m.+1)%N) vlist.
  rewrite all_cat all_seq1 size_zpoly leqnn !andbT; apply/allP => p /mapP[i _ ->].
  by rewrite leqW // size_vpoly.
have hd : all (fun p : {poly F} => (size p <= m.+1)%N) (drop ni.+1 vlist).
  by apply/allP => p hp; apply: (allP hv); apply: mem_drop hp.
rewrite !all_cat hd andTb; apply/and3P; split.
- by apply/allP => p /mapP[q hq ->]; rewrite (leq_trans (size_scale_leq _ _)) // (allP hd).
- by apply/allP => p /mapP[i]; rewrite mem_iota add0n => /andP[_ hi] ->; rewrite size_polyXn.
by apply/allP => p hp; apply: (allP hv); apply: mem_take hp.
Qed.

Lemma vlist_horner : [seq p.[t] | p <- vlist] = rcons [seq (vpoly i).[t] | i <- iota 0 n.+1] Z.
Proof. by rewrite map_cat /mkseq -map_comp /= zevalE -cats1. Qed.

Lemma uscs_els pk vk : uscs_generator asserts dom cs t alpha tilde g1 g2 = Some (pk, vk) ->
  uk_V_g1_query pk ++ uk_alpha_V_g1_query pk ++ uk_H_g1_query pk ++ uv_IC_first vk :: uv_IC_rest vk
  = batch_exp g1 [seq p.[t] | p <- plist alpha].
Proof.
have [Vt [E eV _]] := ssp_inst t.
have sV : size Vt = n.+1 by rewrite eV size_map size_iota.
rewrite (uscs_genE E sV); case: ifP => // _.
have eH : powers t m.+1 = [seq p.[t] | p <- mkseq (fun i => 'X^i) m.+1].
  apply: (@eq_from_nth _ 0); first by rewrite size_powers size_map size_mkseq.
  by move=> i; rewrite size_powers => hi; rewrite nth_powers // (nth_map 0) ?size_mkseq // nth_mkseq // hornerXn.
rewrite eH /plist; move: (mkseq (fun i => 'X^i) m.+1) => Xs.
have eD : [seq p.[t] | p <- drop ni.+1 vlist] = drop ni.+1 (rcons Vt Z) by rewrite map_drop vlist_horner eV.
have eT : [seq p.[t] | p <- take ni.+1 vlist] = take ni.+1 Vt.
  by rewrite map_take vlist_horner -eV -cats1 takel_cat // sV ltnS uni_n.
case=> <- <-; rewrite [uk_V_g1_query _]/= [uk_alpha_V_g1_query _]/= [uk_H_g1_query _]/= [uv_IC_first _]/= [uv_IC_rest _]/=.
rewrite /batch_exp !map_cat eD eT; congr (_ ++ (_ ++ (_ ++ _))).
  rewrite /batch_exp_with_coeff -eD -!map_comp; apply: eq_map => p /=; by rewrite hornerZ.
by case: (Vt) sV.
Qed.

(** The combination of the keys of the auxiliary variables and of [Z] with coefficients [c]. *)
Lemma lin_aux Vt (c primary : seq F) : Vt = [seq (vpoly i).[t] | i <- iota 0 n.+1] -> size primary = ni ->
  (lin c (drop ni.+1 vlist)).[t]
  = part Vt (primary ++ mkseq (nth 0 c) (n - ni)) ni.+1 n.+1 + nth 0 c (n - ni) * Z.
Proof.
move=> eV sp; have sV : size Vt = n.+1 by rewrite eV size_map size_iota.
have lni := uni_n.
have eD : [seq p.[t] | p <- drop ni.+1 vlist] = drop ni.+1 (rcons Vt Z) by rewrite map_drop vlist_horner eV.
have s1 : size (drop ni.+1 (rcons Vt Z)) = (n - ni).+1 by rewrite size_drop size_rcons sV; slia.
rewrite -lin_horner eD /lin s1 big_ord_recr /=; congr (_ + _); last first.
  congr (_ * _); rewrite nth_drop (_ : (ni.+1 + (n - ni))%N = n.+1) ?(nth_rcons_eq _ sV) //; slia.
rewrite /part; have -> : n.+1 = ((n - ni) + ni.+1)%N by slia.
rewrite -{2}[ni.+1]add0n big_addn addnK big_mkord; apply: eq_bigr => i _.
have hi : (ni.+1 + i < n.+1)%N by rewrite addSn ltnS -ltn_subRL ltn_ord.
rewrite nth_drop (nth_rcons_lt _ sV) // addnC addnS /= nth_cat sp ltnNge [(i + ni)%N]addnC leq_addr /= addKn.
by rewrite nth_mkseq // [LHS]mulrC.
Qed.

Variable gen : F.
Hypothesis gen0 : gen != 0.
Hypothesis genz : forall x, x \in dom -> gen * x \notin dom.

Lemma part_splitN (u x : seq F) : part u x 0 n.+1 = part u x 0 ni.+1 + part u x ni.+1 n.+1.
Proof. by rewrite /part (@big_cat_nat _ _ _ ni.+1) //= ltnS uni_n. Qed.

(** The part of the key for the auxiliary variables, with the blinding term. *)
Lemma aux_multiexp (T : lmodType F) (b : T) (Vt : seq F) (x : seq F) : size Vt = n.+1 -> size x = n ->
  multiexp (take (n - ni) (batch_exp b (drop ni.+1 (rcons Vt Z)))) (take (n - ni) (drop ni x))
  = part Vt x ni.+1 n.+1 *: b.
Proof.
move=> sV sx; have h := uni_n.
rewrite /batch_exp -map_take multiexp_scale !size_takel ?size_drop ?size_rcons ?sV ?sx //; last by slia.
rewrite minnn; congr (_ *: _); rewrite /part.
have -> : n.+1 = ((n - ni) + ni.+1)%N by slia.
rewrite -{2}[ni.+1]add0n big_addn addnK big_mkord; apply: eq_bigr => i _.
have hi : (ni.+1 + i < n.+1)%N by rewrite addSn ltnS -ltn_subRL ltn_ord.
by rewrite !nth_take // !nth_drop (nth_rcons_lt _ sV) // addnC addnS /= [(i + ni)%N]addnC.
Qed.

Lemma uscs_closed : exists Vt,
  [/\ forall w, size w = n -> part Vt w 0 n.+1 = (polyV cs dom w).[t], 
      size Vt = n.+1,
      isSome (uscs_generator asserts dom cs t alpha tilde g1 g2)
        = (asserts ==> all (fun c => c != 0) [seq (vpoly i).[t] | i <- iota 0 ni.+1])
    & forall pk vk, uscs_generator asserts dom cs t alpha tilde g1 g2 = Some (pk, vk) ->
   [/\ vk = UscsVerificationKey (tilde *: g2) ((alpha * tilde) *: g2) (Z *: g2) (uv_IC_first vk) (uv_IC_rest vk),
       size (uv_IC_rest vk) = ni,
       forall primary auxiliary, size primary = ni ->
         accumulate_chunk (uv_IC_first vk) (uv_IC_rest vk) primary = part Vt (primary ++ auxiliary) 0 ni.+1 *: g1
     & forall primary auxiliary d,
     size primary = ni -> (size primary + size auxiliary)%N = n ->
     u_is_satisfied cs primary auxiliary = Some true ->
     let x := primary ++ auxiliary in
     let V := part Vt x ni.+1 n.+1 + d * Z in
     let Vf := part Vt x 0 n.+1 + d * Z in
     exists h, Vf * Vf - 1 = h * Z /\
     uscs_prover dom gen pk primary auxiliary d = Some (UscsProof (V *: g1) ((alpha * V) *: g1) (h *: g1) (Vf *: g2))]].
Proof.
have [Vt [E eV hV]] := ssp_inst t.
have sV : size Vt = n.+1 by rewrite eV size_map size_iota.
have hg := uscs_genE E sV; have lni := uni_n.
exists Vt; split=> //.
  rewrite hg; have -> : take ni.+1 Vt = [seq (vpoly i).[t] | i <- iota 0 ni.+1].
    by rewrite eV -map_take take_iota; congr (map _ (iota _ _)); apply/minn_idPl; rewrite ltnS.
  by case: (_ ==> _).
rewrite hg.
set Hq := batch_exp g1 (powers t m.+1); have eHq : Hq = batch_exp g1 (powers t m.+1) by [].
clearbody Hq; case: ifP => // _ pk vk [<- <-]; split=> //=.
- by rewrite size_map size_behead size_takel // sV ltnS.
- by move=> primary auxiliary sp; rewrite (@accumulate_part _ _ g1 Vt primary auxiliary ni sp) // sV ltnS.
move=> primary auxiliary d sp sz sat; set x := primary ++ auxiliary.
have sx : size x = n by rewrite size_cat.
have hsat : forall l, l \in u_constraints cs -> denote l x ^+ 2 = 1.
  have [b [eb hb]] := C02_uscs_is_satisfied wf sp sz.
  by move: eb; rewrite sat => -[eb]; apply: hb.1; rewrite -eb.
have [w [e1 e2 e3 e4]] := @ssp_complete _ cs wf dom udom m_gt0 ldom gen gen0 genz primary auxiliary d sx hsat.
have [q [Eq hs]] := e4 t.
have [q' [Eq' hs']] := @ssp_eval_spec _ cs wf dom ldom t.
move: Eq'; rewrite Eq => -[Eq']; rewrite -Eq' in hs'.
have [[h1 h2 h3 h4 h5] h6] := (hs' w).1 hs.
rewrite e2 e3 in h6.
exists (Poly (pw_H w)).[t]; rewrite hV //; split=> //.
have hP := multiexp_powersN g1 t h5; rewrite -eHq in hP.
rewrite /uscs_prover /= e1 /= h1 h2 h3 e2 e3 -/x.
have s1 : size (drop ni.+1 (rcons Vt Z)) = (n - ni).+1 by rewrite size_drop size_rcons sV; slia.
have n1 : nth 0 (drop ni.+1 (rcons Vt Z)) (n - ni) = Z.
  by rewrite nth_drop (_ : (ni.+1 + (n - ni))%N = n.+1) ?(nth_rcons_eq _ sV) //; slia.
rewrite !(vget_nth 0) /batch_exp /batch_exp_with_coeff ?size_map ?s1 ?size_rcons ?sV ?subn1 //= .
rewrite !(nth_map 0) ?s1 ?size_rcons ?sV // n1 (nth_rcons_eq _ sV) (nth_rcons_lt _ sV) //.
have em : [seq (alpha * x0) *: g1 | x0 <- drop ni.+1 (rcons Vt Z)] = batch_exp (alpha *: g1) (drop ni.+1 (rcons Vt Z)).
  by apply: eq_map => y; rewrite scalerA mulrC.
rewrite em !(aux_multiexp _ sV sx) add0r hP.
congr (Some (UscsProof _ _ _ _)).
- by rewrite scalerA -scalerDl addrC.
- by rewrite !scalerA -scalerDl; congr (_ *: _); fring F.
rewrite -hV // scalerA -scalerDl /batch_exp (_ : drop 1 _ = batch_exp g2 (drop 1 (rcons Vt Z))); last by rewrite -map_drop.
rewrite /batch_exp -map_take multiexp_scale.
have -> : size (take n (drop 1 (rcons Vt Z))) = n by rewrite size_takel // size_drop size_rcons sV subn1 leqW.
have -> : size (take n x) = n by rewrite size_takel // sx.
rewrite minnn -scalerDl.
congr (_ *: _); rewrite /part big_nat_recl //= mulr1 big_mkord addrAC; congr (_ + _ + _).
by apply: eq_bigr => i _; rewrite !nth_take ?ltn_ord // nth_drop add1n (nth_rcons_lt _ sV) // ltnS ltn_ord.
Qed.
End Us.
