(** The R1CS-to-QAP reduction. *)
From mathcomp Require Import all_ssreflect all_algebra.
From Verif.Model Require Import Base LinearCombination ConstraintSystems Domain ArithmeticPrograms.
From Verif.Spec Require Import LinearSpec.
From Verif.Proofs Require Import FieldTac LinearProofs DomainProofs ProgramProofs.
From Verif.Props Require Import C02_R1csSemantics.
Set Implicit Arguments.
Unset Strict Implicit.
Unset Printing Implicit Defensive.
Import GRing.Theory.
Local Open Scope ring_scope.

Section QP.
Variable F : fieldType.
Add Field Ff_qp : (@ffield_theory F).
Implicit Types (dom v w : seq F) (t g : F).
Variable cs : r1cs F.
Hypothesis wf : r1cs_wf cs.
Variable dom : seq F.
Hypothesis udom : uniq dom.
Hypothesis ldom : (r_num_constraints cs + r_num_inputs cs + 1 <= size dom)%N.

Notation nc := (r_num_constraints cs).
Notation ni := (r_num_inputs cs).
Notation n := (r_num_variables cs).
Notation m := (size dom).
Let c0 : r1cs_constraint F := R1csConstraint [::] [::] [::].
Notation con i := (nth c0 (r_constraints cs) i).

Definition valX (side : r1cs_constraint F -> lc F) w (i : nat) : F :=
  if (i < nc)%N then denote (side (con i)) w else 0.
Definition valA w (i : nat) : F :=
  if (i < nc)%N then denote (ra (con i)) w
  else if (i <= nc + ni)%N then var_value w (i - nc) else 0.

Definition polyX side w := Poly (inverse_fft dom (mkseq (valX side w) m)).
Definition polyA w := Poly (inverse_fft dom (mkseq (valA w) m)).

Definition side_ok (side : r1cs_constraint F -> lc F) := forall k, k \in r_constraints cs -> vars_in (side k) n.
Lemma side_ra : side_ok (@ra F). Proof. by move=> k /wf []. Qed.
Lemma side_rb : side_ok (@rb F). Proof. by move=> k /wf []. Qed.
Lemma side_rc : side_ok (@rc F). Proof. by move=> k /wf []. Qed.

Lemma ni_n : (ni <= n)%N. Proof. exact: leq_addr. Qed.
Lemma nc_m : (nc <= m)%N.
Proof. by rewrite (leq_trans _ ldom) // addn1 (leq_trans (leq_addr ni _)). Qed.
Lemma m_gt0 : (0 < m)%N. Proof. by rewrite (leq_trans _ ldom) // addn1. Qed.
Lemma con_in i : (i < nc)%N -> con i \in r_constraints cs. Proof. by move=> h; apply: mem_nth. Qed.

Lemma qap_updates_vars side u : side_ok side -> vars_in (qap_updates side cs u) n.
Proof.
move=> h tm /flatten_mapP[ic /mem_enum_idx [_ hin] /mapP[tm' htm' ->]] /=.
exact: h hin _ htm'.
Qed.

Lemma vars_lt (l : seq (nat * F)) k : vars_in l k -> all (fun u : nat * F => u.1 < k.+1)%N l.
Proof. by move=> h; apply/allP => tm /h; rewrite ltnS. Qed.

Lemma qap_updates_denote side u w :
  denote (qap_updates side cs u) w = \sum_(i < nc) nth 0 u i * denote (side (con i)) w.
Proof.
rewrite denote_flatten big_map.
rewrite -(@enum_idx_sum _ _ c0 (r_constraints cs) (fun i c => nth 0 u i * denote (side c) w)).
by apply: eq_bigr => ic _; rewrite denote_map_scale.
Qed.

Lemma polyX_horner side w t :
  (polyX side w).[t] = \sum_(i < nc) lagrange_eval dom t i * denote (side (con i)) w.
Proof.
rewrite inverse_fft_horner (big_ord_widen m (fun i => lagrange_eval dom t i * denote (side (con i)) w) nc_m).
rewrite [RHS]big_mkcond; apply: eq_bigr => i _; rewrite nth_mkseq ?ltn_ord // /valX.
by case: ifP => _; rewrite ?mul0r // mulrC.
Qed.

Lemma polyX_at side w i : (i < m)%N -> (polyX side w).[nth 0 dom i] = valX side w i.
Proof. by move=> li; rewrite inverse_fft_at // nth_mkseq. Qed.
Lemma polyA_at w i : (i < m)%N -> (polyA w).[nth 0 dom i] = valA w i.
Proof. by move=> li; rewrite inverse_fft_at // nth_mkseq. Qed.

Lemma polyA_horner w t :
  (polyA w).[t] = \sum_(i < nc) lagrange_eval dom t i * denote (ra (con i)) w
     + \sum_(i < ni.+1) lagrange_eval dom t (nc + i)%N * var_value w i.
Proof.
rewrite inverse_fft_horner -(big_mkord xpredT (fun i => nth 0 (mkseq (valA w) m) i * lagrange_eval dom t i)).
rewrite (@big_cat_nat _ _ _ nc) ?nc_m //=; congr (_ + _).
  rewrite big_mkord; apply: eq_bigr => i _.
  by rewrite nth_mkseq ?(leq_trans (ltn_ord i)) ?nc_m // /valA ltn_ord mulrC.
rewrite -{1}[nc]add0n big_addn -(big_mkord xpredT (fun i => lagrange_eval dom t (nc + i) * var_value w i)).
have h : (ni.+1 <= m - nc)%N by rewrite leq_subRL ?nc_m // addnS -addn1.
rewrite (@big_cat_nat _ _ _ ni.+1) //= [X in _ + X]big_nat [X in _ + X]big1 ?addr0.
  apply: eq_big_nat => i /andP[_ hi].
  rewrite nth_mkseq; last by rewrite addnC -ltn_subRL (leq_trans hi h).
  by rewrite /valA ltnNge leq_addl /= addnC leq_add2l -ltnS hi addKn mulrC.
move=> i /andP[h1 h2]; rewrite nth_mkseq; last by rewrite addnC -ltn_subRL.
by rewrite /valA ltnNge leq_addl /= addnC leq_add2l leqNgt h1 mul0r.
Qed.

Definition input_updates (u : seq F) := [seq (i, nth 0 u (nc + i)%N) | i <- iota 0 ni.+1].

Lemma input_updates_ok u : vars_in (input_updates u) n.
Proof.
move=> tm /mapP[i]; rewrite mem_iota add0n => /andP[_]; rewrite ltnS => hi -> /=.
exact: leq_trans hi ni_n.
Qed.

Lemma input_updates_denote u w :
  denote (input_updates u) w = \sum_(i < ni.+1) nth 0 u (nc + i)%N * var_value w i.
Proof. by rewrite /denote big_map big_iota0. Qed.

Lemma side_eval side t : side_ok side -> exists Xt,
  [/\ run_adds (nseq n.+1 0) (qap_updates side cs (evaluate_all_lagrange_polynomials dom t)) = Some Xt,
      size Xt = n.+1
    & forall w, size w = n -> head 0 Xt + inner_product (behead Xt) w = (polyX side w).[t]].
Proof.
move=> h; set u := evaluate_all_lagrange_polynomials _ _.
have hv := @qap_updates_vars side u h.
have [Xt [e sX hX]] := run_adds_zero (vars_lt hv).
exists Xt; split=> // w sw; rewrite (ans_denote sX sw hX hv) qap_updates_denote polyX_horner.
by apply: eq_bigr => i _; rewrite nth_lagrange ?(leq_trans (ltn_ord i)) ?nc_m.
Qed.

Lemma A_eval t : exists At0 At,
  [/\ run_sets (nseq n.+1 0) (input_updates (evaluate_all_lagrange_polynomials dom t)) = Some At0,
      run_adds At0 (qap_updates (@ra F) cs (evaluate_all_lagrange_polynomials dom t)) = Some At,
      size At = n.+1
    & forall w, size w = n -> head 0 At + inner_product (behead At) w = (polyA w).[t]].
Proof.
set u := evaluate_all_lagrange_polynomials _ _.
have hi := @input_updates_ok u.
have hv := @qap_updates_vars _ u side_ra.
have hc : vars_in (input_updates u ++ qap_updates (@ra F) cs u) n.
  by move=> tm; rewrite mem_cat => /orP[/hi|/hv].
have [At [e sA hA]] := run_adds_zero (vars_lt hc).
have es : run_sets (nseq n.+1 0) (input_updates u) = run_adds (nseq n.+1 0) (input_updates u).
  apply: run_sets_adds; rewrite ?size_nseq ?vars_lt //.
    by rewrite -map_comp map_inj_uniq ?iota_uniq // => i j.
  by move=> k _; rewrite nth_nseq if_same.
move: e; rewrite run_adds_cat es; case: (run_adds _ (input_updates u)) => [At0|] //= e.
exists At0, At; split=> // w sw; rewrite (ans_denote sA sw hA hc) denote_cat addrC.
rewrite qap_updates_denote input_updates_denote polyA_horner; congr (_ + _); apply: eq_bigr => i _.
  by rewrite nth_lagrange ?(leq_trans (ltn_ord i)) ?nc_m.
by rewrite nth_lagrange // (leq_trans _ ldom) // addn1 ltnS leq_add2l -ltnS.
Qed.

Lemma qap_eval_spec t : exists q, [/\ qap_instance_map_with_evaluation dom cs t = Some q,
  qe_domain q = dom & qe_t q = t] /\ forall w : qap_witness F,
  qap_eval_is_satisfied q w <->
  [/\ (qw_num_variables w = n), qw_degree w = m, qw_num_inputs w = ni, size (qw_ABCs w) = n & size (qw_H w) = m.+1]
  /\ ((polyA (qw_ABCs w)).[t] + qw_d1 w * zeval dom t) * ((polyX (@rb F) (qw_ABCs w)).[t] + qw_d2 w * zeval dom t)
       - ((polyX (@rc F) (qw_ABCs w)).[t] + qw_d3 w * zeval dom t)
     = (Poly (qw_H w)).[t] * zeval dom t.
Proof.
rewrite /qap_instance_map_with_evaluation.
have [At0 [At [eA0 eA sA hA]]] := A_eval t.
have [Bt [eB sB hB]] := side_eval t side_rb.
have [Ct [eC sC hC]] := side_eval t side_rc.
rewrite -/(input_updates _) eA0 /= eA /= eB /= eC /=.
have := size_powers t m.+1; have := @inner_powers _ t m.+1.
move: (powers t m.+1) => Ht hH sH.
eexists; split=> // w; rewrite /qap_eval_is_satisfied /= sA sB sC sH !eqxx /=.
case: (eqVneq n _) => [e1|e1] /=; last by split=> // -[[e _ _ _ _] _]; rewrite e eqxx in e1.
case: (eqVneq m _) => [e2|e2] /=; last by split=> // -[[_ e _ _ _] _]; rewrite e eqxx in e2.
case: (eqVneq ni _) => [e3|e3] /=; last by split=> // -[[_ _ e _ _] _]; rewrite e eqxx in e3.
case: (eqVneq n (size _)) => [e4|e4] /=; last by split=> // -[[_ _ _ e _] _]; rewrite e eqxx in e4.
case: (eqVneq m.+1 (size _)) => [e5|e5] /=; last by split=> // -[[_ _ _ _ e] _]; rewrite e eqxx in e5.
rewrite ![_ + _ * zeval dom t + inner_product _ _]addrAC hA ?hB ?hC // add0r hH //.
case: eqP => h; split=> //; last by case.
Qed.

Theorem qap_sound (w : qap_witness F) ts : uniq ts -> (2 * m < size ts)%N ->
  (forall t, t \in ts -> exists q, qap_instance_map_with_evaluation dom cs t = Some q
      /\ qap_eval_is_satisfied q w) ->
  forall k, k \in r_constraints cs ->
    denote (ra k) (qw_ABCs w) * denote (rb k) (qw_ABCs w) = denote (rc k) (qw_ABCs w).
Proof.
move=> uts lts h.
have {}h t : t \in ts -> size (qw_H w) = m.+1 /\
  ((polyA (qw_ABCs w)).[t] + qw_d1 w * zeval dom t) * ((polyX (@rb F) (qw_ABCs w)).[t] + qw_d2 w * zeval dom t)
       - ((polyX (@rc F) (qw_ABCs w)).[t] + qw_d3 w * zeval dom t)
     = (Poly (qw_H w)).[t] * zeval dom t.
  move/h => [q [e hq]]; have [q' [[e' _ _] hs]] := qap_eval_spec t.
  by move: e; rewrite e' => -[eq]; move: hq; rewrite -eq => /hs [[_ _ _ _ ?] ?].
have sH : size (qw_H w) = m.+1.
  by case: (ts) lts h => // t l _ h; have [] := h t (mem_head _ _).
move=> k /(nthP c0) [i li <-].
have lim : (i < m)%N by rewrite (leq_trans li) ?nc_m.
have := @program_sound _ dom ts (polyA (qw_ABCs w)) (polyX (@rb F) (qw_ABCs w)) (polyX (@rc F) (qw_ABCs w))
  (Poly (qw_H w)) (qw_d1 w) (qw_d2 w) (qw_d3 w) m_gt0
  (size_inv_poly _ _) (size_inv_poly _ _) (size_inv_poly _ _).
rewrite (leq_trans (size_Poly _)) ?sH // => /(_ isT uts lts (fun t tt => (h t tt).2) _ (mem_nth 0 lim)).
by rewrite polyA_at // !polyX_at // /valA /valX li.
Qed.

Lemma eval_all_some side full : side_ok side -> size full = n ->
  eval_all side cs full = Some [seq denote (side k) full | k <- r_constraints cs].
Proof.
move=> h sf; apply: oseq_some => i x0 li.
by rewrite lc_evaluate_some // sf; apply: h; apply: mem_nth.
Qed.

Lemma nth_evals (side : r1cs_constraint F -> lc F) full i : (i < nc)%N ->
  nth 0 [seq denote (side k) full | k <- r_constraints cs] i = denote (side (con i)) full.
Proof. by move=> li; rewrite (nth_map c0). Qed.

Lemma run_evals (side : r1cs_constraint F -> lc F) full : exists v, run_adds (nseq m 0)
   (enum_idx [seq denote (side k) full | k <- r_constraints cs]) = Some v
   /\ v = mkseq (valX side full) m.
Proof.
have [|v [e sv hv]] := @run_adds_zero F m (enum_idx [seq denote (side k) full | k <- r_constraints cs]).
  by apply: all_enum_idx; rewrite size_map nc_m.
exists v; split=> //; apply: (@eq_from_nth _ 0); first by rewrite sv size_mkseq.
move=> i; rewrite sv => li; rewrite hv coef_enum_idx nth_mkseq // /valX.
by case: ltnP => [h|h]; [rewrite nth_evals | rewrite nth_default // size_map].
Qed.

Variable g : F.
Hypothesis g0 : g != 0.
Hypothesis gz : forall x, x \in dom -> g * x \notin dom.

Lemma run_evalsA full : size full = n -> exists v0 v,
  [/\ run_sets (nseq m 0) [seq ((i + nc)%N, if i is i'.+1 then nth 0 full i' else 1) | i <- iota 0 ni.+1] = Some v0,
   run_adds v0 (enum_idx [seq denote (ra k) full | k <- r_constraints cs]) = Some v
   & v = mkseq (valA full) m].
Proof.
move=> sf; set us := [seq _ | i <- iota 0 ni.+1]; set ev := [seq _ | k <- r_constraints cs].
have hus : all (fun u : nat * F => u.1 < m)%N us.
  apply/allP => u /mapP[i]; rewrite mem_iota add0n => /andP[_ hi] -> /=.
  by rewrite (leq_trans _ ldom) // addn1 ltnS addnC leq_add2l -ltnS.
have hev : all (fun u : nat * F => u.1 < m)%N (enum_idx ev).
  by apply: all_enum_idx; rewrite size_map nc_m.
have [|v [e sv hv]] := @run_adds_zero F m (us ++ enum_idx ev); first by rewrite all_cat hus.
have es : run_sets (nseq m 0) us = run_adds (nseq m 0) us.
  apply: run_sets_adds; rewrite ?size_nseq //.
    by rewrite -map_comp map_inj_uniq ?iota_uniq // => i j /= /addIn.
  by move=> k _; rewrite nth_nseq if_same.
move: e; rewrite run_adds_cat es; case: (run_adds _ us) => [v0|] //= e.
exists v0, v; split=> //; apply: (@eq_from_nth _ 0); first by rewrite sv size_mkseq.
move=> i; rewrite sv => li; rewrite hv coef_cat coef_enum_idx nth_mkseq // /valA.
have -> : coef_of us i = if (nc <= i <= nc + ni)%N then var_value full (i - nc) else 0.
  have -> : us = [seq (i, var_value full (i - nc)) | i <- iota nc ni.+1].
    rewrite -[X in iota X _]addn0 iotaDl -map_comp; apply/eq_map => -[|j] /=.
      by rewrite addn0 subnn.
    by rewrite addnC addKn.
  by rewrite coef_iota addnS ltnS.
case: ltnP => [h|h] /=; first by rewrite add0r nth_evals.
by rewrite [nth _ _ _]nth_default ?size_map // addr0.
Qed.

Theorem qap_complete primary auxiliary d1 d2 d3 :
  size (primary ++ auxiliary) = n ->
  (forall k, k \in r_constraints cs ->
       denote (ra k) (primary ++ auxiliary) * denote (rb k) (primary ++ auxiliary)
       = denote (rc k) (primary ++ auxiliary)) ->
  exists w : qap_witness F, [/\ qap_witness_map dom g cs primary auxiliary d1 d2 d3 = Some w,
    qw_ABCs w = primary ++ auxiliary, [/\ qw_d1 w = d1, qw_d2 w = d2, qw_d3 w = d3,
    qw_num_inputs w = ni & size (qw_H w) = m.+1],
    (d1 = 0 -> d2 = 0 -> d3 = 0 -> (size (Poly (qw_H w)) <= m.-1)%N) &
    forall t, exists q, qap_instance_map_with_evaluation dom cs t = Some q
      /\ qap_eval_is_satisfied q w].
Proof.
set full := primary ++ auxiliary => sf sat.
rewrite /qap_witness_map -/full.
have [v0 [vA [e0 eA hA]]] := run_evalsA sf.
have [vB [eB hB]] := run_evals (@rb F) full.
have [vC [eC hC]] := run_evals (@rc F) full.
rewrite e0 /= !eval_all_some // ?side_ra ?side_rb ?side_rc //=; try by [apply: side_ra|apply: side_rb|apply: side_rc].
rewrite eA /= eB /= hA hB.
set H0 := _ ++ [:: 0].
have sH0 : size H0 = m.+1 by rewrite size_cat size_map size_iota addn1.
have [|H1 [e1 s1 h1]] := @run_adds_spec _ H0 [:: (0%N, - d3)]; first by rewrite /= sH0.
rewrite e1 /= eC /= hC.
set q := quotient_from_coset _ _ _.
have [|H [eH sH hH]] := @add_quotient F (add_poly_z dom (d1 * d2) H1) q m _ (size_quotient_from_coset _ _ _).
  by rewrite size_add_poly_z // s1.
rewrite eH /=.
pose A := polyA full; pose B := polyX (@rb F) full; pose C := polyX (@rc F) full.
have pH1 : Poly H1 = d2 *: A + d1 *: B - d3%:P.
  apply/polyP => k; rewrite coef_Poly h1 coefB coefC coef_cons coef_nil addr0 /= [0%N == k]eq_sym.
  rewrite -[nth 0 H0 k]coef_Poly Poly_map_iota coef_poly coefD !coefZ !coef_Poly.
  rewrite [in LHS](fun_if (fun x => x + _)).
  case: ltnP => hk; case: (eqVneq k 0%N) => [k0|_]; rewrite ?subr0 ?addr0 //.
    by move: hk; rewrite k0 leqNgt m_gt0.
  by rewrite !nth_default ?size_inverse_fft // !mulr0 addr0.
have [||] := @program_complete _ dom g A B C
   [seq nth 0 [seq nth 0 (fft dom (multiply_by_coset (inverse_fft dom (mkseq (valA full) m)) g)) i *
                   nth 0 (fft dom (multiply_by_coset (inverse_fft dom (mkseq (valX (@rb F) full) m)) g)) i
              | i <- iota 0 m] i -
        nth 0 (fft dom (multiply_by_coset (inverse_fft dom (mkseq (valX (@rc F) full) m)) g)) i
      | i <- iota 0 m] m_gt0 udom g0 gz (size_inv_poly _ _) (size_inv_poly _ _) (size_inv_poly _ _).
- move=> x /(nthP 0)[i li <-]; rewrite polyA_at // !polyX_at // /valA /valX.
  case: ltnP => h; first by apply: sat; apply: con_in.
  by rewrite mulr0.
- by move=> i li; rewrite !nth_map_iota // !nth_fft_coset.
rewrite -/q => eQ sQ.
have pH : Poly H = d2 *: A + d1 *: B - d3%:P + (d1 * d2) *: zpoly dom + Poly q.
  by rewrite hH Poly_add_poly_z pH1.
eexists; split; first reflexivity; rewrite //=.
  move=> d10 d20 d30; rewrite pH d10 d20 d30 mul0r !scale0r polyC0 oppr0 !addr0 ?add0r //.
move=> t; have [qe [[e _ _] hs]] := qap_eval_spec t; exists qe; split=> //.
apply/hs; split=> //=; rewrite -/A -/B -/C pH zevalE.
have := congr1 (fun p => p.[t]) eQ; rewrite !hornerE => eQ'.
set Z := (zpoly dom).[t] in eQ' *.
have -> : C.[t] = A.[t] * B.[t] - (Poly q).[t] * Z by rewrite -eQ' opprB addrC subrK.
fring F.
Qed.

(** ** The Lagrange-basis instance *)

Definition mval (u : seq F) (mp : seq (nat * F)) : F := \sum_(el <- mp) nth 0 u el.1 * el.2.

Lemma mval_add u mp k c : mval u (map_add mp k c) = mval u mp + nth 0 u k * c.
Proof.
rewrite /mval; elim: mp => [|e mp IH] /=; first by rewrite big_seq1 big_nil !add0r.
case: eqP => [<-|_]; rewrite !big_cons /= ?IH ?mulrDr ?addrA //.
by rewrite -!addrA [_ + nth 0 u _ * c]addrC.
Qed.

Lemma run_map_adds_spec u (v : seq (seq (nat * F))) us : all (fun x : nat * nat * F => x.1.1 < size v)%N us ->
  exists v' : seq (seq (nat * F)), [/\ run_map_adds v us = Some v', size v' = size v
    & forall k, mval u (nth [::] v' k) = mval u (nth [::] v k)
        + coef_of [seq (x.1.1, nth 0 u x.1.2 * x.2) | x <- us] k].
Proof.
rewrite /run_map_adds; elim: us v => [|x us IH] v /= => [_|/andP[lu h]].
  by exists v; split=> // k; rewrite coef_nil addr0.
rewrite (vgetE [::]) lu /=.
have [v1 e1] := vset_some (map_add (nth [::] v x.1.1) x.1.2 x.2) lu; rewrite e1 /=.
have [|v' [e2 sz h']] := IH v1; first by rewrite (size_vset e1).
exists v'; split=> //; first by rewrite sz (size_vset e1).
move=> k; rewrite h' (nth_vset _ _ e1) coef_cons /= [x.1.1 == k]eq_sym.
by case: eqP => [->|_]; rewrite ?mval_add ?add0r ?addrA.
Qed.

Lemma run_map_sets_adds (v : seq (seq (nat * F))) us : uniq [seq x.1.1 | x <- us] ->
  all (fun x : nat * nat * F => x.1.1 < size v)%N us ->
  (forall k, k \in [seq x.1.1 | x <- us] -> nth [::] v k = [::]) -> run_map_sets v us = run_map_adds v us.
Proof.
rewrite /run_map_sets /run_map_adds; elim: us v => [|x us IH] v //= /andP[nu uu] /andP[lu h] z.
rewrite (vgetE [::]) lu /= z ?mem_head //= add0r.
have [v1 e1] := vset_some [:: (x.1.2, x.2)] lu; rewrite e1 /= IH //; first by rewrite (size_vset e1).
move=> k hk; rewrite (nth_vset _ _ e1); case: eqP => [ek|_]; first by rewrite -ek hk in nu.
by rewrite z // in_cons hk orbT.
Qed.

Lemma run_map_adds_cat (v : seq (seq (nat * F))) us us' :
  run_map_adds v (us ++ us') = obnd (@run_map_adds F v us) (fun v' : seq (seq (nat * F)) => run_map_adds v' us').
Proof.
rewrite /run_map_adds; elim: us v => //= x us IH v.
by case: (obnd (vget v x.1.1) _) => //=.
Qed.

Lemma eval_maps_spec u (v : seq (seq (nat * F))) k : exists Xt,
  [/\ eval_maps u v k = Some Xt, size Xt = k & forall i, (i < k)%N -> nth 0 Xt i = mval u (nth [::] v i)].
Proof.
rewrite /eval_maps; set us := flatten _.
have [|Xt [e s h]] := @run_adds_zero F k us.
  apply/allP => x /flatten_mapP[i]; rewrite mem_iota add0n => /andP[_ hi] /mapP[el _ ->] //.
exists Xt; split=> // i li; rewrite h coef_flatten big_map big_iota0.
rewrite (bigD1 (Ordinal li)) //= [X in _ + X]big1 ?addr0.
  by rewrite /coef_of big_map /= big_mkcond; apply: eq_bigr => el _; rewrite eqxx.
move=> j; rewrite -val_eqE /= => /negbTE nj.
by rewrite /coef_of big_map big1 //= => el; rewrite nj.
Qed.

Lemma nth_nseq_nil k i : nth [::] (nseq k ([::] : seq (nat * F))) i = [::].
Proof. by rewrite nth_nseq if_same. Qed.

Lemma side_maps t (us : seq (nat * nat * F)) (us' : seq (nat * F)) :
  vars_in us' n ->
  us' = [seq (x.1.1, nth 0 (evaluate_all_lagrange_polynomials dom t) x.1.2 * x.2) | x <- us] ->
  exists (v : seq (seq (nat * F))) (Xt : seq F),
  [/\ run_map_adds (nseq n.+1 [::]) us = Some v, size Xt = n.+1,
      eval_maps (evaluate_all_lagrange_polynomials dom t) v n.+1 = Some Xt
    & run_adds (nseq n.+1 0) us' = Some Xt].
Proof.
move=> hv e; set u := evaluate_all_lagrange_polynomials _ _ in e *.
have [|v [ev sv hvv]] := @run_map_adds_spec u (nseq n.+1 [::]) us.
  rewrite size_nseq; apply/allP => x hx.
  by have /hv : (x.1.1, nth 0 u x.1.2 * x.2) \in us' by rewrite e; apply/mapP; exists x.
have [Xt [eX sX hX]] := eval_maps_spec u v n.+1.
have [Yt [eY sY hY]] := run_adds_zero (vars_lt hv).
exists v, Xt; split=> //; rewrite eY; congr Some; apply: (@eq_from_nth _ 0); first by rewrite sX.
move=> i; rewrite sY => li; rewrite hY hX // hvv nth_nseq_nil -e /mval big_nil add0r //.
Qed.

Lemma qap_updates_maps side t :
  qap_updates side cs (evaluate_all_lagrange_polynomials dom t) =
  [seq (x.1.1, nth 0 (evaluate_all_lagrange_polynomials dom t) x.1.2 * x.2) | x <- qap_map_updates side cs].
Proof.
by rewrite /qap_updates /qap_map_updates map_flatten -map_comp; congr flatten; apply: eq_map => ic /=; rewrite -map_comp.
Qed.

Theorem qap_instances_agree t : exists qi q,
  [/\ qap_instance_map dom cs = Some qi, qap_instance_map_with_evaluation dom cs t = Some q
    & forall w : qap_witness F, qap_inst_is_satisfied qi t w = Some (qap_eval_is_satisfied q w)].
Proof.
pose u := evaluate_all_lagrange_polynomials dom t.
rewrite /qap_instance_map /qap_instance_map_with_evaluation.
have [vB [Bt [eB sB evB uB]]] := side_maps (@qap_updates_vars _ u side_rb) (qap_updates_maps _ t).
have [vC [Ct [eC sC evC uC]]] := side_maps (@qap_updates_vars _ u side_rc) (qap_updates_maps _ t).
have hc : vars_in (input_updates u ++ qap_updates (@ra F) cs u) n.
  by move=> tm; rewrite mem_cat => /orP[/input_updates_ok|/(qap_updates_vars side_ra)].
pose ius : seq (nat * nat * F) := [seq (i, (nc + i)%N, 1) | i <- iota 0 ni.+1].
have [|vA [At [eA sA evA uA]]] := @side_maps t (ius ++ qap_map_updates (@ra F) cs) _ hc.
  rewrite map_cat qap_updates_maps; congr (_ ++ _).
  by rewrite -map_comp; apply: eq_map => i /=; rewrite mulr1.
rewrite -[[seq (i, (nc + i)%N, 1) | i <- iota 0 ni.+1]]/ius -/u -/(input_updates u).
have -> : run_map_sets (nseq n.+1 [::]) ius = run_map_adds (nseq n.+1 [::]) ius.
  apply: run_map_sets_adds; rewrite ?size_nseq.
  - by rewrite -map_comp map_inj_uniq ?iota_uniq // => i j.
  - apply/allP => x /mapP[i]; rewrite mem_iota add0n => /andP[_ hi] -> /=.
    by rewrite (leq_trans hi) // ltnS ni_n.
  by move=> k _; rewrite nth_nseq_nil.
have -> : run_sets (nseq n.+1 0) (input_updates u) = run_adds (nseq n.+1 0) (input_updates u).
  apply: run_sets_adds; rewrite ?size_nseq ?vars_lt //; last by move=> k _; rewrite nth_nseq if_same.
    by rewrite -map_comp map_inj_uniq ?iota_uniq // => i j.
  exact: input_updates_ok.
move: eA; rewrite run_map_adds_cat; case: (run_map_adds _ ius) => //= vA0 -> /=.
move: uA; rewrite run_adds_cat; case: (run_adds _ (input_updates u)) => //= At0 -> /=.
rewrite eB eC uB uC /=; eexists; eexists; split; [reflexivity|reflexivity|] => w.
by rewrite /qap_inst_is_satisfied /= evA /= evB /= evC.
Qed.

End QP.
