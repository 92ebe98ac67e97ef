(** The R1CS-to-SAP reduction. *)
From mathcomp Require Import all_ssreflect all_algebra.
From Verif.Model Require Import Base LinearCombination ConstraintSystems Domain ArithmeticPrograms.
From Verif.Spec Require Import LinearSpec.
From Verif.Proofs Require Import NatTac FieldTac LinearProofs DomainProofs ProgramProofs BacsProofs.
From Verif.Props Require Import C02_R1csSemantics.
Set Implicit Arguments.
Unset Strict Implicit.
Unset Printing Implicit Defensive.
Import GRing.Theory.
Local Open Scope ring_scope.

Section Pair.
Variable F : fieldType.
(** Values interleaved two by two from position [off] on. *)
Definition pairval (off n : nat) (X Y : nat -> F) (j : nat) : F :=
  if (off <= j < off + 2 * n)%N then
    (if odd (j - off) then Y ((j - off)./2) else X ((j - off)./2)) else 0.

Lemma pairvalE off n X Y j : pairval off n X Y j =
  \sum_(i < n) ((if (off + 2 * i == j)%N then X i else 0) + (if (off + 2 * i + 1 == j)%N then Y i else 0)).
Proof.
rewrite /pairval; case: ifP => [/andP[h1 h2]|h]; last first.
  rewrite big1 // => i _.
  have hi : (2 * i + 1 < 2 * n)%N by rewrite !mul2n addn1 -doubleS ltn_Sdouble ltn_ord.
  have -> : (off + 2 * i == j)%N = false.
    apply: contraFF h => /eqP <-; rewrite leq_addr ltn_add2l (leq_trans _ hi) // ltnS leq_addr //.
  have -> : (off + 2 * i + 1 == j)%N = false.
    by apply: contraFF h => /eqP <-; rewrite -addnA leq_addr ltn_add2l hi.
  by rewrite addr0.
set k := (j - off)%N.
have ej : j = (off + k)%N by rewrite subnKC.
have lk : (k./2 < n)%N.
  by move: h2; rewrite ej ltn_add2l mul2n -{1}(odd_double_half k); case: (odd k); rewrite ?add0n ?add1n ?ltn_double // ltn_Sdouble.
rewrite (bigD1 (Ordinal lk)) //= big1 ?addr0.
  rewrite ej -addnA !eqn_add2l mul2n.
  have e := odd_double_half k.
  move: (k./2) e => h <-; case: (odd k) => /=; rewrite ?add0n ?add1n ?addn1 eqxx.
    by rewrite odd_double eqn_leq ltnn andbF add0r.
  by rewrite odd_double (eqn_leq _.+1) ltnn addr0.
move=> i; rewrite -val_eqE /= => ni.
rewrite ej -addnA !eqn_add2l mul2n.
have e := odd_double_half k.
have -> : (i.*2 == k) = false.
  by apply: contraNF ni => /eqP <-; rewrite doubleK.
have -> : (i.*2 + 1 == k)%N = false.
  by apply: contraNF ni => /eqP <-; rewrite addn1 /= uphalf_double.
by rewrite addr0.
Qed.

Lemma pairval_sum off n X Y m (L : nat -> F) : (off + 2 * n <= m)%N ->
  \sum_(j < m) pairval off n X Y j * L j
  = \sum_(i < n) (X i * L (off + 2 * i)%N + Y i * L (off + 2 * i + 1)%N).
Proof.
move=> h.
rewrite (eq_bigr (fun j : 'I_m => \sum_(i < n)
   ((if (off + 2 * i == j)%N then X i else 0) + (if (off + 2 * i + 1 == j)%N then Y i else 0)) * L j)); last first.
  by move=> j _; rewrite pairvalE mulr_suml.
rewrite exchange_big; apply: eq_bigr => i _ /=.
have hi : (2 * i + 1 < 2 * n)%N by rewrite !mul2n addn1 -doubleS ltn_Sdouble ltn_ord.
have h2 : (off + 2 * i + 1 < m)%N by rewrite (leq_trans _ h) // -addnA ltn_add2l.
have h1 : (off + 2 * i < m)%N by rewrite (leq_trans _ h2) // ltnS leq_addr.
rewrite (eq_bigr (fun j : 'I_m => (if (off + 2 * i == j)%N then X i * L j else 0)
   + (if (off + 2 * i + 1 == j)%N then Y i * L j else 0))); last first.
  by move=> j _; rewrite mulrDl; case: ifP; case: ifP; rewrite ?mul0r.
rewrite big_split /=; congr (_ + _); rewrite -big_mkcond /=.
  by rewrite (big_pred1 (Ordinal h1)) // => j; rewrite /= -val_eqE /= eq_sym.
by rewrite (big_pred1 (Ordinal h2)) // => j; rewrite /= -val_eqE /= eq_sym.
Qed.

Lemma big_iota1 (V : zmodType) n (f : nat -> V) : \sum_(i <- iota 1 n) f i = \sum_(i < n) f i.+1.
Proof. by rewrite -[1%N]addn0 iotaDl big_map big_iota0; apply: eq_bigr => i _; rewrite add1n. Qed.

Lemma unit_sum m k (L : nat -> F) : (k < m)%N -> \sum_(j < m) (if j == k :> nat then 1 else 0) * L j = L k.
Proof.
move=> h; rewrite (bigD1 (Ordinal h)) //= eqxx mul1r big1 ?addr0 // => i.
by rewrite -val_eqE /= => /negbTE ->; rewrite mul0r.
Qed.
End Pair.

Section SaP.
Variable F : fieldType.
Add Field Ff_sap : (@ffield_theory F).
Variable cs : r1cs F.
Hypothesis wf : r1cs_wf cs.
Variable dom : seq F.
Hypothesis udom : uniq dom.
Hypothesis ldom : (sap_domain_size cs <= size dom)%N.

Notation nc := (r_num_constraints cs).
Notation ni := (r_num_inputs cs).
Notation n := (r_num_variables cs).
Notation N := (sap_num_variables cs).
Notation eco := (2 * r_num_constraints cs)%N.
Notation m := (size dom).
Let c0 : r1cs_constraint F := R1csConstraint [::] [::] [::].
Notation con i := (nth c0 (r_constraints cs) i).
Implicit Type w : seq F.

Lemma m_gt0 : (0 < m)%N. Proof. by rewrite (leq_trans _ ldom) // /sap_domain_size addn1. Qed.
Lemma eco_m : (eco < m)%N.
Proof. by rewrite (leq_trans _ ldom) // /sap_domain_size addn1 ltnS leq_addr. Qed.
Lemma eco2_m : (eco.+1 + 2 * ni <= m)%N.
Proof. by rewrite (leq_trans _ ldom) // /sap_domain_size addn1. Qed.

Definition valA w j : F :=
  pairval 0 nc (fun i => denote (ra (con i)) w + denote (rb (con i)) w)
               (fun i => denote (ra (con i)) w - denote (rb (con i)) w) j
  + (if j == eco then 1 else 0)
  + pairval eco.+1 ni (fun i => var_value w i.+1 + 1) (fun i => var_value w i.+1 - 1) j.
Definition valC w j : F :=
  pairval 0 nc (fun i => times_four (denote (rc (con i)) w) + var_value w (n + 1 + i))
               (fun i => var_value w (n + 1 + i)) j
  + (if j == eco then 1 else 0)
  + pairval eco.+1 ni (fun i => times_four (var_value w i.+1) + var_value w (n + nc + i.+1))
                      (fun i => var_value w (n + nc + i.+1)) j.

Definition polyA w := Poly (inverse_fft dom (mkseq (valA w) m)).
Definition polyC w := Poly (inverse_fft dom (mkseq (valC w) m)).
Lemma polyA_at w i : (i < m)%N -> (polyA w).[nth 0 dom i] = valA w i.
Proof. by move=> li; rewrite inverse_fft_at // nth_mkseq. Qed.
Lemma polyC_at w i : (i < m)%N -> (polyC w).[nth 0 dom i] = valC w i.
Proof. by move=> li; rewrite inverse_fft_at // nth_mkseq. Qed.

Lemma eco_idx i : (eco + 2 * i.+1 - 1 = eco.+1 + 2 * i)%N.
Proof. slia. Qed.
Lemma eco_idx2 i : (eco + 2 * i.+1 = eco.+1 + 2 * i + 1)%N.
Proof. slia. Qed.

Lemma var_value0 w : var_value w 0 = 1. Proof. by []. Qed.

Lemma denote1 k (c : F) w : denote [:: (k, c)] w = c * var_value w k.
Proof. by rewrite /denote big_seq1. Qed.

Lemma denote_nil w : denote ([::] : seq (nat * F)) w = 0. Proof. by rewrite /denote big_nil. Qed.

Lemma A_denote u w : denote (sap_A_updates cs u) w = \sum_(j < m) valA w j * nth 0 u j.
Proof.
rewrite /valA (eq_bigr _ (fun j _ => mulrDl _ _ _)) big_split (eq_bigr _ (fun j _ => mulrDl _ _ _)) big_split /=.
rewrite unit_sum ?eco_m // !pairval_sum ?eco2_m //; last by rewrite add0n ltnW ?eco_m.
rewrite /sap_A_updates denote_cat denote_cons /= var_value0 mulr1 addrA; congr (_ + _ + _).
  rewrite denote_flatten big_map.
  rewrite -(@enum_idx_sum _ _ c0 (r_constraints cs) (fun i c => (denote (ra c) w + denote (rb c) w) * nth 0 u (0 + 2 * i)
     + (denote (ra c) w - denote (rb c) w) * nth 0 u (0 + 2 * i + 1))).
  apply: eq_bigr => -[i c] _ /=; rewrite denote_cat !denote_flatten !big_map.
  rewrite (eq_bigr (fun tm : nat * F => (nth 0 u (2 * i) + nth 0 u (2 * i + 1)) * (tm.2 * var_value w tm.1))); last first.
    by move=> tm _; rewrite denote_cons denote1 /=; fring F.
  rewrite [X in _ + X](eq_bigr (fun tm : nat * F => (nth 0 u (2 * i) - nth 0 u (2 * i + 1)) * (tm.2 * var_value w tm.1))); last first.
    by move=> tm _; rewrite denote_cons denote1 /=; fring F.
  rewrite -!mulr_sumr -/(denote (ra c) w) -/(denote (rb c) w) !add0n.
  move: (denote _ _) (denote _ _) (nth _ _ _) (nth _ _ _) => x y z t; fring F.
rewrite denote_flatten big_map big_iota1; apply: eq_bigr => i _.
by rewrite !denote_cons denote_nil /= eco_idx eco_idx2 !var_value0; fring F.
Qed.

Lemma C_denote u w : denote (sap_C_updates cs u) w = \sum_(j < m) valC w j * nth 0 u j.
Proof.
rewrite /valC (eq_bigr _ (fun j _ => mulrDl _ _ _)) big_split (eq_bigr _ (fun j _ => mulrDl _ _ _)) big_split /=.
rewrite unit_sum ?eco_m // !pairval_sum ?eco2_m //; last by rewrite add0n ltnW ?eco_m.
rewrite /sap_C_updates denote_cat denote_cons /= var_value0 mulr1 addrA; congr (_ + _ + _).
  rewrite denote_flatten big_map.
  rewrite -(@enum_idx_sum _ _ c0 (r_constraints cs) (fun i c => (times_four (denote (rc c) w) + var_value w (n + 1 + i))
     * nth 0 u (0 + 2 * i) + (var_value w (n + 1 + i)) * nth 0 u (0 + 2 * i + 1))).
  apply: eq_bigr => -[i c] _ /=; rewrite denote_cat denote_cons denote1 /=.
  rewrite {1}/denote big_map.
  rewrite (eq_bigr (fun tm : nat * F => (1 + 1 + (1 + 1)) * nth 0 u (2 * i) * (tm.2 * var_value w tm.1))); last first.
    by move=> tm _; rewrite /times_four /=; fring F.
  rewrite -!mulr_sumr -/(denote (rc c) w) !add0n /times_four.
  move: (denote _ _) (nth _ _ _) (nth _ _ _) (var_value _ _) => x y z t; fring F.
rewrite denote_flatten big_map big_iota1; apply: eq_bigr => i _.
by rewrite !denote_cons denote_nil /= eco_idx eco_idx2 /times_four; fring F.
Qed.

Lemma polyA_horner w t :
  (polyA w).[t] = \sum_(i < m) valA w i * nth 0 (evaluate_all_lagrange_polynomials dom t) i.
Proof. by rewrite inverse_fft_horner; apply: eq_bigr => i _; rewrite nth_mkseq // nth_lagrange. Qed.
Lemma polyC_horner w t :
  (polyC w).[t] = \sum_(i < m) valC w i * nth 0 (evaluate_all_lagrange_polynomials dom t) i.
Proof. by rewrite inverse_fft_horner; apply: eq_bigr => i _; rewrite nth_mkseq // nth_lagrange. Qed.

Lemma n_N : (n <= N)%N. Proof. by rewrite /sap_num_variables -addnA leq_addr. Qed.

Lemma in_n_N k : (k <= n)%N -> (k <= N)%N. Proof. by move=> h; rewrite (leq_trans h) ?n_N. Qed.

Lemma A_vars u : vars_in (sap_A_updates cs u) N.
Proof.
move=> tm; rewrite mem_cat in_cons => /or3P[|/eqP -> //|].
  move=> /flatten_mapP[ic /mem_enum_idx [_ hin]]; have [ha hb _] := wf hin.
  rewrite mem_cat => /orP[] /flatten_mapP[tm' htm']; rewrite !inE => /orP[] /eqP -> /=; apply: in_n_N.
  - exact: ha htm'.
  - exact: ha htm'.
  - exact: hb htm'.
  - exact: hb htm'.
move=> /flatten_mapP[i]; rewrite mem_iota add1n ltnS => /andP[_ hi].
by rewrite !inE => /or4P[] /eqP -> //=; rewrite in_n_N // (leq_trans hi) // leq_addr.
Qed.

Lemma C_vars u : vars_in (sap_C_updates cs u) N.
Proof.
move=> tm; rewrite mem_cat in_cons => /or3P[|/eqP -> //|].
  move=> /flatten_mapP[ic /mem_enum_idx [li hin]]; have [_ _ hc] := wf hin.
  have h : (n + 1 + ic.1 <= N)%N by rewrite /sap_num_variables -addnA (leq_trans _ (leq_addr _ _)) // leq_add2l add1n.
  rewrite mem_cat !inE => /or3P[/mapP[tm' htm' ->] | /eqP -> // | /eqP -> //] /=; apply: in_n_N.
  exact: hc htm'.
move=> /flatten_mapP[i]; rewrite mem_iota add1n ltnS => /andP[_ hi].
have h : (n + nc + i <= N)%N by rewrite leq_add2l.
by rewrite !inE => /or3P[] /eqP -> //=; rewrite in_n_N // (leq_trans hi) // leq_addr.
Qed.

Lemma vars_lt (l : seq (nat * F)) k : vars_in l k -> all (fun u : nat * F => u.1 < k.+1)%N l.
Proof. by move=> h; apply/allP => tm /h; rewrite ltnS. Qed.

Lemma sap_eval_spec t : exists q, sap_instance_map_with_evaluation dom cs t = Some q
  /\ forall w : sap_witness F,
  sap_eval_is_satisfied q w <->
  [/\ (sw_num_variables w = N), sw_degree w = m, sw_num_inputs w = ni, size (sw_ACs w) = N & size (sw_H w) = m.+1]
  /\ ((polyA (sw_ACs w)).[t] + sw_d1 w * zeval dom t) * ((polyA (sw_ACs w)).[t] + sw_d1 w * zeval dom t)
      - ((polyC (sw_ACs w)).[t] + sw_d2 w * zeval dom t)
     = (Poly (sw_H w)).[t] * zeval dom t.
Proof.
rewrite /sap_instance_map_with_evaluation; set u := evaluate_all_lagrange_polynomials _ _.
have hvA := @A_vars u; have hvC := @C_vars u.
have [At [eA sA hA]] := run_adds_zero (vars_lt hvA).
have [Ct [eC sC hC]] := run_adds_zero (vars_lt hvC).
have hA' w (sw : size w = N) : head 0 At + inner_product (behead At) w = (polyA w).[t].
  by rewrite (ans_denote sA sw hA hvA) A_denote polyA_horner.
have hC' w (sw : size w = N) : head 0 Ct + inner_product (behead Ct) w = (polyC w).[t].
  by rewrite (ans_denote sC sw hC hvC) C_denote polyC_horner.
rewrite eA /= eC /=.
have := size_powers t m.+1; have := @inner_powers _ t m.+1.
move: (powers t m.+1) => Ht hH sH.
eexists; split=> // w; rewrite /sap_eval_is_satisfied /= sA sC sH !eqxx /=.
case: (eqVneq N _) => [e1|e1] /=; last by split=> // -[[e' _ _ _ _] _]; rewrite e' eqxx in e1.
case: (eqVneq m _) => [e2|e2] /=; last by split=> // -[[_ e' _ _ _] _]; rewrite e' eqxx in e2.
case: (eqVneq ni _) => [e3|e3] /=; last by split=> // -[[_ _ e' _ _] _]; rewrite e' eqxx in e3.
case: (eqVneq N (size _)) => [e4|e4] /=; last by split=> // -[[_ _ _ e' _] _]; rewrite e' eqxx in e4.
case: (eqVneq m.+1 (size _)) => [e5|e5] /=; last by split=> // -[[_ _ _ _ e'] _]; rewrite e' eqxx in e5.
rewrite ![_ + _ * zeval dom t + inner_product _ _]addrAC hA' // hC' // add0r hH //.
case: eqP => h; split=> //; last by case.
Qed.

Lemma pair_even off k X Y i : (i < k)%N -> pairval off k X Y (off + 2 * i) = X i :> F.
Proof.
move=> li; rewrite /pairval leq_addr ltn_add2l ltn_mul2l li addKn mul2n odd_double doubleK //.
Qed.
Lemma pair_odd off k X Y i : (i < k)%N -> pairval off k X Y (off + 2 * i + 1) = Y i :> F.
Proof.
move=> li; rewrite /pairval -addnA leq_addr ltn_add2l addKn mul2n addn1 /= odd_double /= uphalf_double.
by rewrite mul2n ltn_Sdouble li.
Qed.
Lemma pair_out off k X Y j : (j < off)%N || (off + 2 * k <= j)%N -> pairval off k X Y j = 0 :> F.
Proof.
move=> h; rewrite /pairval; case: ifP => // /andP[h1 h2]; exfalso; move: h; apply/negP.
by rewrite negb_or -leqNgt h1 -ltnNge h2.
Qed.

Lemma vals_even w i : (i < nc)%N ->
  valA w (2 * i) = denote (ra (con i)) w + denote (rb (con i)) w
  /\ valC w (2 * i) = times_four (denote (rc (con i)) w) + var_value w (n + 1 + i).
Proof.
move=> li; have h : (2 * i < eco)%N by rewrite ltn_mul2l.
rewrite /valA /valC ![pairval eco.+1 _ _ _ _]pair_out ?(ltn_trans h) // -[(2 * i)%N]add0n !pair_even // add0n.
by rewrite (ltn_eqF h) !addr0.
Qed.
Lemma vals_odd w i : (i < nc)%N ->
  valA w (2 * i + 1) = denote (ra (con i)) w - denote (rb (con i)) w
  /\ valC w (2 * i + 1) = var_value w (n + 1 + i).
Proof.
move=> li; have h : (2 * i + 1 < eco)%N by rewrite !mul2n addn1 -doubleS ltn_Sdouble.
rewrite /valA /valC ![pairval eco.+1 _ _ _ _]pair_out ?(ltn_trans h) // -[(2 * i)%N]add0n !pair_odd // add0n.
by rewrite (ltn_eqF h) !addr0.
Qed.

Theorem sap_sound (w : sap_witness F) ts : (2%:R : F) != 0 -> uniq ts -> (2 * m < size ts)%N ->
  (forall t, t \in ts -> exists q, sap_instance_map_with_evaluation dom cs t = Some q
      /\ sap_eval_is_satisfied q w) ->
  size (sw_ACs w) = N /\ forall k, k \in r_constraints cs ->
    denote (ra k) (sw_ACs w) * denote (rb k) (sw_ACs w) = denote (rc k) (sw_ACs w).
Proof.
move=> two uts lts h.
have {}h t : t \in ts -> (size (sw_ACs w) = N /\ size (sw_H w) = m.+1) /\
  ((polyA (sw_ACs w)).[t] + sw_d1 w * zeval dom t) * ((polyA (sw_ACs w)).[t] + sw_d1 w * zeval dom t)
      - ((polyC (sw_ACs w)).[t] + sw_d2 w * zeval dom t)
     = (Poly (sw_H w)).[t] * zeval dom t.
  move/h => [q [e hq]]; have [q' [e' hs]] := sap_eval_spec t.
  by move: e; rewrite e' => -[eq]; move: hq; rewrite -eq => /hs [[_ _ _ ? ?] e1].
have [sV sH] : size (sw_ACs w) = N /\ size (sw_H w) = m.+1.
  by case: (ts) lts h => // t l _ h; have [] := h t (mem_head _ _).
split=> // k /(nthP c0) [i li <-].
have := @program_sound _ dom ts (polyA (sw_ACs w)) (polyA (sw_ACs w)) (polyC (sw_ACs w))
  (Poly (sw_H w)) (sw_d1 w) (sw_d1 w) (sw_d2 w) m_gt0 (size_inv_poly _ _) (size_inv_poly _ _) (size_inv_poly _ _).
rewrite (leq_trans (size_Poly _)) ?sH // => /(_ isT uts lts (fun t tt => (h t tt).2)) hx.
have lim1 : (2 * i + 1 < m)%N by rewrite (ltn_trans _ eco_m) // !mul2n addn1 -doubleS ltn_Sdouble.
have lim0 : (2 * i < m)%N by rewrite (leq_ltn_trans _ lim1) // leq_addr.
have := hx _ (mem_nth 0 lim0); have := hx _ (mem_nth 0 lim1).
rewrite !polyA_at // !polyC_at //.
have [-> ->] := @vals_even (sw_ACs w) i li; have [-> ->] := @vals_odd (sw_ACs w) i li.
move: (denote (ra _) _) (denote (rb _) _) (denote (rc _) _) (var_value _ _) => a b c x <-.
rewrite /times_four => e.
have : 2%:R * 2%:R * (a * b - c) = 0.
  rewrite (_ : 2%:R * 2%:R * (a * b - c) = (a + b) * (a + b) - ((c + c + (c + c)) + (a - b) * (a - b))); last by fring F.
  by rewrite e subrr.
by move/eqP; rewrite !mulf_eq0 !(negbTE two) /= subr_eq0 => /eqP.
Qed.

(** ** Completeness *)
Variable g : F.
Hypothesis g0 : g != 0.
Hypothesis gz : forall x, x \in dom -> g * x \notin dom.

Definition extras (full0 : seq F) := [seq (denote (ra c) full0 - denote (rb c) full0) * (denote (ra c) full0 - denote (rb c) full0)
   | c <- r_constraints cs].
Definition extras2 (full0 : seq F) := [seq (var_value full0 i - 1) * (var_value full0 i - 1) | i <- iota 1 ni].
Definition full_of (full0 : seq F) := full0 ++ extras full0 ++ extras2 full0.

Lemma var_value_cat (x y : seq F) i : (i <= size x)%N -> var_value (x ++ y) i = var_value x i.
Proof. by rewrite /var_value -cat_cons nth_cat /= ltnS => ->. Qed.

Lemma denote_catx (l : seq (nat * F)) (x y : seq F) : vars_in l (size x) -> denote l (x ++ y) = denote l x.
Proof.
by move=> h; rewrite /denote !big_seq; apply: eq_bigr => tm /h ht; rewrite var_value_cat.
Qed.

Lemma sap_extend1 full0 l acc : size full0 = n -> {subset l <= r_constraints cs} ->
  ofold (fun full c =>
          obnd (lc_evaluate (ra c) full) (fun a =>
          obnd (lc_evaluate (rb c) full) (fun b =>
          let extra := a - b in Some (rcons full (extra * extra)))))
        (full0 ++ acc) l = Some (full0 ++ acc ++
   [seq (denote (ra c) full0 - denote (rb c) full0) * (denote (ra c) full0 - denote (rb c) full0) | c <- l]).
Proof.
move=> s0; elim: l acc => [|c l IH] acc hsub /=; first by rewrite !cats0.
have [ha hb _] := wf (hsub c (mem_head _ _)).
rewrite !lc_evaluate_some /= ?size_cat ?s0; first last.
- by move=> tm /ha /leq_trans -> //; rewrite leq_addr.
- by move=> tm /hb /leq_trans -> //; rewrite leq_addr.
rewrite !denote_catx ?s0 // rcons_cat IH; last by move=> x xl; apply: hsub; rewrite in_cons xl orbT.
by rewrite cat_rcons.
Qed.

Lemma sap_extendE full0 : size full0 = n -> sap_extend cs full0 = Some (full_of full0).
Proof.
move=> s0; rewrite /sap_extend.
have := @sap_extend1 full0 (r_constraints cs) [::] s0 (fun x h => h).
rewrite cats0 cat0s -/(extras full0) => ->.
rewrite /= /full_of catA /extras2.
have : all (fun i => 0 < i <= n)%N (iota 1 ni).
  apply/allP => i; rewrite mem_iota add1n ltnS => /andP[-> h] /=; by rewrite (leq_trans h) // leq_addr.
move: (extras full0); elim: (iota 1 ni) => [|i l IH] acc /=; first by rewrite cats0.
case/andP => /andP[i0 hi] hl.
have li : (i.-1 < size full0)%N by rewrite s0 prednK.
rewrite (vgetE 0) size_cat ltn_addr //= nth_cat li rcons_cat IH // -!catA cat_rcons.
by case: i i0 hi li.
Qed.

Lemma size_full_of full0 : size full0 = n -> size (full_of full0) = N.
Proof. by move=> h; rewrite !size_cat h !size_map size_iota addnA. Qed.

Lemma full_extra full0 i : size full0 = n -> (i < nc)%N ->
  var_value (full_of full0) (n + 1 + i) = nth 0 (extras full0) i.
Proof.
move=> s0 li; rewrite /var_value /full_of addn1 addSn /= nth_cat s0 ltnNge leq_addr /= addKn.
by rewrite nth_cat size_map li.
Qed.
Lemma full_extra2 full0 i : size full0 = n -> (i < ni)%N ->
  var_value (full_of full0) (n + nc + i.+1) = nth 0 (extras2 full0) i.
Proof.
move=> s0 li; rewrite /var_value /full_of addnS /= nth_cat s0 -addnA ltnNge leq_addr /= addKn.
by rewrite nth_cat size_map ltnNge leq_addr /= addKn.
Qed.

Lemma pair_square off k (X Y X' Y' : nat -> F) : 
  (forall i, (i < k)%N -> X i * X i = X' i /\ Y i * Y i = Y' i) ->
  forall j, pairval off k X Y j * pairval off k X Y j = pairval off k X' Y' j.
Proof.
move=> h j; rewrite /pairval; case: ifP => [/andP[h1 h2]|]; last by rewrite mul0r.
have lt : ((j - off)./2 < k)%N.
  by have := odd_double_half (j - off)%N; move: (odd _) (half _) => o h' e; slia.
by have [h3 h4] := h _ lt; case: ifP.
Qed.

Lemma pair_zero off k (X Y X' Y' : nat -> F) j : pairval off k X Y j != 0 -> (off <= j < off + 2 * k)%N.
Proof. by rewrite /pairval; case: ifP => //; rewrite eqxx. Qed.

Lemma vals_square full0 j : size full0 = n ->
  (forall k, k \in r_constraints cs -> denote (ra k) full0 * denote (rb k) full0 = denote (rc k) full0) ->
  valA (full_of full0) j * valA (full_of full0) j = valC (full_of full0) j.
Proof.
move=> s0 sat; rewrite /valA /valC.
set P1 := pairval 0 nc _ _ j; set P2 := pairval eco.+1 ni _ _ j.
set Q1 := pairval 0 nc _ _ j; set Q2 := pairval eco.+1 ni _ _ j.
have e1 : P1 * P1 = Q1.
  apply: pair_square => i li; rewrite full_extra // (nth_map c0) //.
  have ci : con i \in r_constraints cs by apply: mem_nth.
  have [ha hb hc] := wf ci.
  rewrite /full_of !denote_catx ?s0 // -(sat _ ci) /times_four; split=> //.
  fring F.
have e2 : P2 * P2 = Q2.
  apply: pair_square => i li; rewrite full_extra2 // (nth_map 0%N) ?size_iota // nth_iota // add1n.
  rewrite /full_of !var_value_cat; try by rewrite s0 (leq_trans li) // leq_addr.
  by rewrite /times_four; split=> //; fring F.
have d12 : P1 = 0 \/ P2 = 0.
  have [->|/pair_zero h] := eqVneq P1 0; first by left.
  right; apply: pair_out; case/andP: (h (fun=> 0) (fun=> 0)) => _; rewrite add0n => hj.
  by rewrite ltnS ltnW.
have [ej|nj] := eqVneq j eco.
  have z1 : P1 = 0 by apply: pair_out; rewrite ej add0n leqnn orbT.
  have z2 : P2 = 0 by apply: pair_out; rewrite ej ltnSn.
  by rewrite -e1 -e2 z1 z2 !mul0r !add0r addr0 mulr1.
rewrite -e1 -e2 !addr0; case: d12 => ->; rewrite ?add0r ?addr0 !mul0r ?add0r ?addr0 //.
Qed.

Lemma coef_pairs off k (X Y : nat -> F) (us : nat -> seq (nat * F)) j :
  (forall i, (i < k)%N -> coef_of (us i) j = (if (off + 2 * i == j)%N then X i else 0)
     + (if (off + 2 * i + 1 == j)%N then Y i else 0)) ->
  coef_of (flatten [seq us i | i <- iota 0 k]) j = pairval off k X Y j.
Proof.
move=> h; rewrite coef_flatten big_map big_iota0 pairvalE; apply: eq_bigr => i _; exact: h.
Qed.

Definition evs (side : r1cs_constraint F -> lc F) full := [seq denote (side k) full | k <- r_constraints cs].

Lemma iota1E k : iota 1 k = [seq i.+1 | i <- iota 0 k].
Proof. by rewrite -[1%N]addn0 iotaDl; apply: eq_map. Qed.

Lemma coef_aA full j :
  coef_of (sap_aA_updates cs full (evs (@ra F) full) (evs (@rb F) full)) j = valA full j.
Proof.
rewrite /sap_aA_updates /valA coef_cat coef_cons addrA /=; congr (_ + _ + _).
- rewrite (@coef_pairs 0 nc (fun i => denote (ra (con i)) full + denote (rb (con i)) full)
               (fun i => denote (ra (con i)) full - denote (rb (con i)) full)) // => i li.
  rewrite !coef_cons coef_nil /= !(nth_map c0) // !add0n.
  by do 2!case: ifP => _; rewrite ?add0r ?addr0 // addrA.
- by rewrite eq_sym.
rewrite iota1E -map_comp (@coef_pairs eco.+1 ni (fun i => var_value full i.+1 + 1) (fun i => var_value full i.+1 - 1)) // => i li.
rewrite !coef_cons coef_nil [(_, _).1]/= [(_, _).2]/= /= eco_idx eco_idx2.
by do 2!case: ifP => _; rewrite ?add0r ?addr0 // addrA.
Qed.

Lemma coef_aC full j : coef_of (sap_aC_updates cs full (evs (@rc F) full)) j = valC full j.
Proof.
rewrite /sap_aC_updates /valC coef_cat coef_cons addrA /=; congr (_ + _ + _).
- rewrite (@coef_pairs 0 nc (fun i => times_four (denote (rc (con i)) full) + var_value full (n + 1 + i))
               (fun i => var_value full (n + 1 + i))) // => i li.
  rewrite !coef_cons coef_nil /= !(nth_map c0) // !add0n addn1 addSn subn1 /=.
  by do 2!case: ifP => _; rewrite ?add0r ?addr0 // addrA.
- by rewrite eq_sym.
rewrite iota1E -map_comp (@coef_pairs eco.+1 ni (fun i => times_four (var_value full i.+1) + var_value full (n + nc + i.+1))
                      (fun i => var_value full (n + nc + i.+1))) // => i li.
rewrite !coef_cons coef_nil /= eco_idx eco_idx2 addnS subn1 /=.
by do 2!case: ifP => _; rewrite ?add0r ?addr0 // addrA.
Qed.

Lemma idx_small i : (i < nc)%N -> (2 * i + 1 < m)%N /\ (2 * i < m)%N.
Proof.
move=> li; have h : (2 * i + 1 < m)%N by rewrite (ltn_trans _ eco_m) // !mul2n addn1 -doubleS ltn_Sdouble.
by split=> //; rewrite (leq_ltn_trans _ h) // leq_addr.
Qed.
Lemma idx_big i : (i < ni)%N -> (eco.+1 + 2 * i + 1 < m)%N /\ (eco.+1 + 2 * i < m)%N.
Proof.
move=> li; have h : (eco.+1 + 2 * i + 1 < m)%N.
  by rewrite (leq_trans _ eco2_m) // -addnA ltn_add2l !mul2n addn1 -doubleS ltn_Sdouble.
by split=> //; rewrite (leq_ltn_trans _ h) // leq_addr.
Qed.

Lemma aA_range full ea eb : all (fun u : nat * F => u.1 < m)%N (sap_aA_updates cs full ea eb).
Proof.
apply/allP => x; rewrite mem_cat in_cons => /or3P[/flatten_mapP[i]|/eqP -> /=|/flatten_mapP[i]].
- rewrite mem_iota add0n => /andP[_ /idx_small [h1 h0]].
  by rewrite !inE => /or4P[] /eqP ->.
- exact: eco_m.
rewrite iota1E => /mapP[i' ]; rewrite mem_iota add0n => /andP[_ /idx_big [h1 h0]] ->.
by rewrite !inE => /or4P[] /eqP -> /=; rewrite ?eco_idx ?eco_idx2.
Qed.
Lemma aC_range full ec : all (fun u : nat * F => u.1 < m)%N (sap_aC_updates cs full ec).
Proof.
apply/allP => x; rewrite mem_cat in_cons => /or3P[/flatten_mapP[i]|/eqP -> /=|/flatten_mapP[i]].
- rewrite mem_iota add0n => /andP[_ /idx_small [h1 h0]].
  by rewrite !inE => /or3P[] /eqP ->.
- exact: eco_m.
rewrite iota1E => /mapP[i' ]; rewrite mem_iota add0n => /andP[_ /idx_big [h1 h0]] ->.
by rewrite !inE => /or3P[] /eqP -> /=; rewrite ?eco_idx ?eco_idx2.
Qed.

Lemma run_val us (f : nat -> F) : all (fun u : nat * F => u.1 < m)%N us ->
  (forall j, coef_of us j = f j) -> run_adds (nseq m 0) us = Some (mkseq f m).
Proof.
move=> h hc; have [v [-> sv hv]] := run_adds_zero h; congr Some.
apply: (@eq_from_nth _ 0); rewrite ?size_mkseq // sv => i li; by rewrite hv hc nth_mkseq.
Qed.

Theorem sap_complete primary auxiliary d1 d2 : size (primary ++ auxiliary) = n ->
  (forall k, k \in r_constraints cs ->
       denote (ra k) (primary ++ auxiliary) * denote (rb k) (primary ++ auxiliary)
       = denote (rc k) (primary ++ auxiliary)) ->
  exists w : sap_witness F, [/\ sap_witness_map dom g cs primary auxiliary d1 d2 = Some w,
    take n (sw_ACs w) = primary ++ auxiliary, sw_d1 w = d1 /\ sw_d2 w = d2 &
    forall t, exists q, sap_instance_map_with_evaluation dom cs t = Some q
      /\ sap_eval_is_satisfied q w].
Proof.
set full0 := primary ++ auxiliary => s0 sat.
rewrite /sap_witness_map -/full0 (sap_extendE s0) /=.
pose full := full_of full0; rewrite -/full.
have sf : size full = N by apply: size_full_of.
have ev side : (forall k, k \in r_constraints cs -> vars_in (side k) n) -> eval_all side cs full = Some (evs side full).
  move=> h; apply: oseq_some => i x0 li; rewrite lc_evaluate_some // sf => tm htm; apply: in_n_N.
  by apply: h htm; apply: mem_nth.
rewrite !ev /=; try by move=> k /wf [].
rewrite (run_val (aA_range _ _ _) (coef_aA full)) /=.
set H0 := _ ++ [:: 0].
have sH0 : size H0 = m.+1 by rewrite size_cat size_map size_iota addn1.
have [|H1 [e1 s1 h1]] := @run_adds_spec _ H0 [:: (0%N, - d2)]; first by rewrite /= sH0.
rewrite e1 /= (run_val (aC_range _ _) (coef_aC full)) /=.
set q := quotient_from_coset _ _ _.
have [|H [eH sH hH]] := @add_quotient F (add_poly_z dom (d1 * d1) H1) q m _ (size_quotient_from_coset _ _ _).
  by rewrite size_add_poly_z // s1.
rewrite eH /=.
pose A := polyA full; pose C := polyC full.
have pH1 : Poly H1 = d1 *: A + d1 *: A - d2%:P.
  apply/polyP => k; rewrite coef_Poly h1 coefB coefC coef_cons coef_nil addr0 /= [0%N == k]eq_sym.
  rewrite -[nth 0 H0 k]coef_Poly Poly_map_iota coef_poly coefD !coefZ !coef_Poly.
  rewrite [in LHS](fun_if (fun x => x + _)).
  case: ltnP => hk; case: (eqVneq k 0%N) => [k0|_]; rewrite ?subr0 ?addr0 //.
    by move: hk; rewrite k0 leqNgt m_gt0.
  by rewrite !nth_default ?size_inverse_fft // !mulr0 addr0.
have [||] := @program_complete _ dom g A A C
   [seq nth 0 [seq nth 0 (fft dom (multiply_by_coset (inverse_fft dom (mkseq (valA full) m)) g)) i *
                   nth 0 (fft dom (multiply_by_coset (inverse_fft dom (mkseq (valA full) m)) g)) i
              | i <- iota 0 m] i -
        nth 0 (fft dom (multiply_by_coset (inverse_fft dom (mkseq (valC full) m)) g)) i
      | i <- iota 0 m] m_gt0 udom g0 gz (size_inv_poly _ _) (size_inv_poly _ _) (size_inv_poly _ _).
- by move=> x /(nthP 0)[i li <-]; rewrite polyA_at // !polyC_at // vals_square.
- by move=> i li; rewrite !nth_map_iota // !nth_fft_coset.
rewrite -/q => eQ sQ.
have pH : Poly H = d1 *: A + d1 *: A - d2%:P + (d1 * d1) *: zpoly dom + Poly q.
  by rewrite hH Poly_add_poly_z pH1.
eexists; split; first reflexivity; rewrite //=.
  by rewrite /full /full_of -s0 take_size_cat.
move=> t; have [qe [e hs]] := sap_eval_spec t; exists qe; split=> //.
apply/hs; split=> //=; rewrite -/A -/C pH zevalE.
have := congr1 (fun p => p.[t]) eQ; rewrite !hornerE.
move: (A.[t]) (C.[t]) ((Poly q).[t]) ((zpoly dom).[t]) => x z y Z eQ'.
have -> : z = x * x - y * Z by rewrite -eQ' opprB addrC subrK.
fring F.
Qed.

End SaP.
