(** The USCS-to-SSP reduction. *)
From mathcomp Require Import all_ssreflect all_algebra.
From Verif.Model Require Import Base LinearCombination ConstraintSystems Domain ArithmeticPrograms.
From Verif.Spec Require Import LinearSpec.
From Verif.Proofs Require Import FieldTac LinearProofs DomainProofs ProgramProofs.
From Verif.Props Require Import C02_R1csSemantics.
Set Implicit Arguments.
Unset Strict Implicit.
Unset Printing Implicit Defensive.
Import GRing.Theory.
Local Open Scope ring_scope.

Section SP.
Variable F : fieldType.
Add Field Ff_sp : (@ffield_theory F).
Variable cs : uscs F.
Hypothesis wf : uscs_wf cs.
Variable dom : seq F.
Hypothesis udom : uniq dom.
Hypothesis m_gt0 : (0 < size dom)%N.
Hypothesis ldom : (size (u_constraints cs) <= size dom)%N.

Notation nc := (size (u_constraints cs)).
Notation ni := (u_num_inputs cs).
Notation n := (u_num_variables cs).
Notation m := (size dom).
Notation con i := (nth [::] (u_constraints cs) i).

Definition valV (w : seq F) (i : nat) : F := if (i < nc)%N then denote (con i) w else 1.
Definition polyV w := Poly (inverse_fft dom (mkseq (valV w) m)).

Lemma polyV_at w i : (i < m)%N -> (polyV w).[nth 0 dom i] = valV w i.
Proof. by move=> li; rewrite inverse_fft_at // nth_mkseq. Qed.

Lemma V_vars u : vars_in (ssp_V_updates dom cs u) n.
Proof.
move=> tm; rewrite mem_cat => /orP[].
  move=> /flatten_mapP[ic /mem_enum_idx [_ hin] /mapP[tm' htm' ->]] /=.
  exact: wf hin _ htm'.
by move=> /mapP[i _ ->].
Qed.

Lemma V_denote u w : denote (ssp_V_updates dom cs u) w = \sum_(i < m) nth 0 u i * valV w i.
Proof.
rewrite denote_cat denote_flatten big_map.
rewrite -(big_mkord xpredT (fun i => nth 0 u i * valV w i)) (@big_cat_nat _ _ _ nc) //=; congr (_ + _).
  rewrite big_mkord.
  rewrite (eq_bigr (fun i : 'I_nc => nth 0 u i * denote (con i) w)); last by move=> i _; rewrite /valV ltn_ord.
  rewrite -(@enum_idx_sum _ _ [::] (u_constraints cs) (fun i c => nth 0 u i * denote c w)).
  by apply: eq_bigr => ic _; rewrite denote_map_scale.
rewrite /denote big_map -/(index_iota nc m); apply: eq_big_nat => i /andP[h _] /=.
by rewrite /valV ltnNge h /=.
Qed.

Lemma polyV_horner w t :
  (polyV w).[t] = \sum_(i < m) nth 0 (evaluate_all_lagrange_polynomials dom t) i * valV w i.
Proof.
by rewrite inverse_fft_horner; apply: eq_bigr => i _; rewrite nth_mkseq // nth_lagrange // mulrC.
Qed.

Lemma vars_lt (l : seq (nat * F)) k : vars_in l k -> all (fun u : nat * F => u.1 < k.+1)%N l.
Proof. by move=> h; apply/allP => tm /h; rewrite ltnS. Qed.

Lemma ssp_eval_spec t : exists q, ssp_instance_map_with_evaluation dom cs t = Some q
  /\ forall w : ssp_witness F,
  ssp_eval_is_satisfied q w <->
  [/\ (pw_num_variables w = n), pw_degree w = m, pw_num_inputs w = ni, size (pw_Vs w) = n & size (pw_H w) = m.+1]
  /\ ((polyV (pw_Vs w)).[t] + pw_d w * zeval dom t) * ((polyV (pw_Vs w)).[t] + pw_d w * zeval dom t) - 1
     = (Poly (pw_H w)).[t] * zeval dom t.
Proof.
rewrite /ssp_instance_map_with_evaluation; set u := evaluate_all_lagrange_polynomials _ _.
have hv := @V_vars u.
have [Vt [e sV hV]] := run_adds_zero (vars_lt hv).
have hV' w (sw : size w = n) : head 0 Vt + inner_product (behead Vt) w = (polyV w).[t].
  by rewrite (ans_denote sV sw hV hv) V_denote polyV_horner.
rewrite e /=.
have := size_powers t m.+1; have := @inner_powers _ t m.+1.
move: (powers t m.+1) => Ht hH sH.
eexists; split=> // w; rewrite /ssp_eval_is_satisfied /= sV sH !eqxx /=.
case: (eqVneq n _) => [e1|e1] /=; last by split=> // -[[e' _ _ _ _] _]; rewrite e' eqxx in e1.
case: (eqVneq m _) => [e2|e2] /=; last by split=> // -[[_ e' _ _ _] _]; rewrite e' eqxx in e2.
case: (eqVneq ni _) => [e3|e3] /=; last by split=> // -[[_ _ e' _ _] _]; rewrite e' eqxx in e3.
case: (eqVneq n (size _)) => [e4|e4] /=; last by split=> // -[[_ _ _ e' _] _]; rewrite e' eqxx in e4.
case: (eqVneq m.+1 (size _)) => [e5|e5] /=; last by split=> // -[[_ _ _ _ e'] _]; rewrite e' eqxx in e5.
rewrite ![_ + _ * zeval dom t + inner_product _ _]addrAC hV' // add0r hH //.
case: eqP => h; split=> //; last by case.
Qed.

Lemma size_poly1_le : (size (1%R : {poly F}) <= m)%N. Proof. by rewrite size_poly1. Qed.

Theorem ssp_sound (w : ssp_witness F) ts : uniq ts -> (2 * m < size ts)%N ->
  (forall t, t \in ts -> exists q, ssp_instance_map_with_evaluation dom cs t = Some q
      /\ ssp_eval_is_satisfied q w) ->
  size (pw_Vs w) = n /\ forall l, l \in u_constraints cs -> denote l (pw_Vs w) ^+ 2 = 1.
Proof.
move=> uts lts h.
have {}h t : t \in ts -> (size (pw_Vs w) = n /\ size (pw_H w) = m.+1) /\
  ((polyV (pw_Vs w)).[t] + pw_d w * zeval dom t) * ((polyV (pw_Vs w)).[t] + pw_d w * zeval dom t)
    - (1.[t] + 0 * zeval dom t) = (Poly (pw_H w)).[t] * zeval dom t.
  move/h => [q [e hq]]; have [q' [e' hs]] := ssp_eval_spec t.
  move: e; rewrite e' => -[eq]; move: hq; rewrite -eq => /hs [[_ _ _ ? ?] e1].
  by split=> //; rewrite hornerC mul0r addr0.
have [sV sH] : size (pw_Vs w) = n /\ size (pw_H w) = m.+1.
  by case: (ts) lts h => // t l _ h; have [] := h t (mem_head _ _).
split=> // k /(nthP [::]) [i li <-].
have lim : (i < m)%N by rewrite (leq_trans li).
have := @program_sound _ dom ts (polyV (pw_Vs w)) (polyV (pw_Vs w)) 1
  (Poly (pw_H w)) (pw_d w) (pw_d w) 0 m_gt0 (size_inv_poly _ _) (size_inv_poly _ _) size_poly1_le.
rewrite (leq_trans (size_Poly _)) ?sH // => /(_ isT uts lts (fun t tt => (h t tt).2) _ (mem_nth 0 lim)).
by rewrite polyV_at // /valV li hornerC expr2.
Qed.

Variable g : F.
Hypothesis g0 : g != 0.
Hypothesis gz : forall x, x \in dom -> g * x \notin dom.

Lemma run_V full : exists v, run_adds (nseq m 0)
    (enum_idx [seq denote c full | c <- u_constraints cs] ++ [seq (i, 1) | i <- iota nc (m - nc)]) = Some v
  /\ v = mkseq (valV full) m.
Proof.
set us := _ ++ _.
have [|v [e sv hv]] := @run_adds_zero F m us.
  rewrite all_cat all_enum_idx ?size_map //=.
  by apply/allP => x /mapP[i]; rewrite mem_iota subnKC // => /andP[_ ?] ->.
exists v; split=> //; apply: (@eq_from_nth _ 0); first by rewrite sv size_mkseq.
move=> i; rewrite sv => li; rewrite hv coef_cat coef_enum_idx (coef_iota nc (m - nc) (fun=> 1)) subnKC // li andbT.
rewrite nth_mkseq // /valV; case: ltnP => h; first by rewrite addr0 (nth_map [::]).
by rewrite nth_default ?size_map // add0r.
Qed.

Theorem ssp_complete primary auxiliary d : size (primary ++ auxiliary) = n ->
  (forall l, l \in u_constraints cs -> denote l (primary ++ auxiliary) ^+ 2 = 1) ->
  exists w : ssp_witness F, [/\ ssp_witness_map dom g cs primary auxiliary d = Some w,
    pw_Vs w = primary ++ auxiliary, pw_d w = d &
    forall t, exists q, ssp_instance_map_with_evaluation dom cs t = Some q
      /\ ssp_eval_is_satisfied q w].
Proof.
set full := primary ++ auxiliary => sf sat.
rewrite /ssp_witness_map -/full.
rewrite (@oseq_some _ _ _ (fun c : lc F => denote c full)) /=; last first.
  by move=> i x0 li; rewrite lc_evaluate_some // sf; apply: wf; apply: mem_nth.
have [v [e hv]] := run_V full.
rewrite e /= hv.
set H0 := _ ++ [:: 0].
have sH0 : size H0 = m.+1 by rewrite size_cat size_map size_iota addn1.
set q := quotient_from_coset _ _ _.
have [|H [eH sH hH]] := @add_quotient F (add_poly_z dom (d ^+ 2) H0) q m _ (size_quotient_from_coset _ _ _).
  by rewrite size_add_poly_z // sH0.
rewrite eH /=.
pose V := polyV full.
have pH0 : Poly H0 = (2%:R * d) *: V.
  apply/polyP => k; rewrite Poly_map_iota coef_poly coefZ coef_Poly.
  by case: ltnP => // hk; rewrite nth_default ?size_inverse_fft // mulr0.
have [||eQ sQ] := @program_complete _ dom g V V 1
   [seq nth 0 (fft dom (multiply_by_coset (inverse_fft dom (mkseq (valV full) m)) g)) i ^+ 2 - 1 | i <- iota 0 m]
   m_gt0 udom g0 gz (size_inv_poly _ _) (size_inv_poly _ _) size_poly1_le.
- move=> x /(nthP 0)[i li <-]; rewrite polyV_at // /valV hornerC.
  by case: ltnP => h; rewrite ?mulr1 // -expr2 sat // mem_nth.
- by move=> i li; rewrite !nth_map_iota // !nth_fft_coset // hornerC expr2.
rewrite -/q in eQ sQ.
have pH : Poly H = (2%:R * d) *: V + (d ^+ 2) *: zpoly dom + Poly q.
  by rewrite hH Poly_add_poly_z pH0.
eexists; split; first reflexivity; rewrite //=.
move=> t; have [qe [e' hs]] := ssp_eval_spec t; exists qe; split=> //.
apply/hs; split=> //=; rewrite -/V pH zevalE.
have := congr1 (fun p => p.[t]) eQ; rewrite !hornerE.
move: (V.[t]) ((Poly q).[t]) ((zpoly dom).[t]) => x y Z eQ'.
rewrite [RHS]mulrDl -eQ'; fring F.
Qed.

End SP.
