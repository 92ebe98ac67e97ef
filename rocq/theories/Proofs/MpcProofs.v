(** The second phase of the Groth16 ceremony. *)
From mathcomp Require Import all_ssreflect all_algebra.
From Verif.Model Require Import Base LinearCombination ConstraintSystems Domain ArithmeticPrograms KnowledgeCommitment
  Groth16 PowersOfTau Groth16Mpc.
From Verif.Spec Require Import LinearSpec GroupSpec CeremonySpec MpcSpec.
From Verif.Proofs Require Import NatTac FieldTac LinearProofs DomainProofs ProgramProofs QapProofs KcProofs PermProofs
  PackingProofs Groth16Proofs CeremonyProofs.
From Verif.Props Require Import C02_R1csSemantics.
Set Implicit Arguments.
Unset Strict Implicit.
Unset Printing Implicit Defensive.
Import GRing.Theory.
Local Open Scope ring_scope.

(** ** the maps of the QAP instance *)
Section Maps.
Variables (F : fieldType).
Implicit Types (v : seq (seq (nat * F))).

Definition lags_in (m : nat) (mp : seq (nat * F)) := all (fun el => el.1 < m)%N mp.

Lemma map_add_lags m mp k (c : F) : (k < m)%N -> lags_in m mp -> lags_in m (map_add mp k c).
Proof.
move=> km; elim: mp => [|x mp IH] /=; first by rewrite km.
by move=> /andP[h1 h2]; case: eqP => _ /=; rewrite ?km ?h1 ?h2 ?IH.
Qed.

Lemma run_map_adds_lags m v v' (us : seq (nat * nat * F)) : all (fun x => x.1.2 < m)%N us ->
  (forall i, lags_in m (nth [::] v i)) -> run_map_adds v us = Some v' -> forall i, lags_in m (nth [::] v' i).
Proof.
rewrite /run_map_adds; elim: us v => [|x us IH] v /=; first by move=> _ h [<-].
move=> /andP[h1 h2] hv; case: (vget v x.1.1) (vgetE [::] v x.1.1) => [mp|] //=; case: ifP => // _ [->].
case e1 : (vset v x.1.1 _) => [v1|] //= hr; apply: (IH v1 h2) hr => i.
by rewrite (nth_vset _ _ e1); case: eqP => // _; apply: map_add_lags.
Qed.
End Maps.

Section Instance.
Variables (F : fieldType) (cs : r1cs F) (dom : seq F).
Hypothesis wf : r1cs_wf cs.
Hypothesis udom : uniq dom.
Hypothesis ldom : (r_num_constraints cs + r_num_inputs cs + 1 <= size dom)%N.
Notation n := (r_num_variables cs).
Notation ni := (r_num_inputs cs).
Notation nc := (r_num_constraints cs).
Notation m := (size dom).

Lemma updates_lags side : all (fun x : nat * nat * F => x.1.2 < m)%N (qap_map_updates side cs).
Proof.
apply/allP => x /flattenP[s /mapP[ic hic ->]] /mapP[tm _ ->] /=.
have [h _] := mem_enum_idx hic; apply: leq_trans h _; apply: leq_trans _ ldom.
by rewrite -addnA leq_addr.
Qed.

Lemma qap_maps_agree t : exists qi q,
  [/\ qap_instance_map dom cs = Some qi, qap_instance_map_with_evaluation dom cs t = Some q,
    [/\ qi_num_variables qi = n, qi_num_inputs qi = ni, qi_degree qi = m & qi_domain qi = dom],
    [/\ size (qe_At q) = n.+1, size (qe_Bt q) = n.+1 & size (qe_Ct q) = n.+1] &
    let u := evaluate_all_lagrange_polynomials dom t in
    forall i, (i < n.+1)%N ->
     [/\ lags_in m (nth [::] (qi_A qi) i), lags_in m (nth [::] (qi_B qi) i) & lags_in m (nth [::] (qi_C qi) i)] /\
     [/\ mval u (nth [::] (qi_A qi) i) = nth 0 (qe_At q) i, mval u (nth [::] (qi_B qi) i) = nth 0 (qe_Bt q) i
       & mval u (nth [::] (qi_C qi) i) = nth 0 (qe_Ct q) i]].
Proof.
pose u := evaluate_all_lagrange_polynomials dom t.
rewrite /qap_instance_map /qap_instance_map_with_evaluation.
have [vB [Bt [eB sB evB uB]]] := side_maps (@qap_updates_vars _ cs _ u (side_rb wf)) (qap_updates_maps cs dom _ t).
have [vC [Ct [eC sC evC uC]]] := side_maps (@qap_updates_vars _ cs _ u (side_rc wf)) (qap_updates_maps cs dom _ t).
have hc : vars_in (input_updates cs u ++ qap_updates (@ra F) cs u) n.
  by move=> tm; rewrite mem_cat => /orP[/input_updates_ok|/(qap_updates_vars (side_ra wf))].
pose ius : seq (nat * nat * F) := [seq (i, (nc + i)%N, 1) | i <- iota 0 ni.+1].
have [|vA [At [eA sA evA uA]]] := @side_maps _ cs dom t (ius ++ qap_map_updates (@ra F) cs) _ hc.
  rewrite map_cat qap_updates_maps; congr (_ ++ _).
  by rewrite -map_comp; apply: eq_map => i /=; rewrite mulr1.
have lA := run_map_adds_lags (m := m) _ _ eA.
rewrite -[[seq (i, (nc + i)%N, 1) | i <- iota 0 ni.+1]]/ius -/u -/(input_updates cs u).
have -> : run_map_sets (nseq n.+1 [::]) ius = run_map_adds (nseq n.+1 [::]) ius.
  apply: run_map_sets_adds; rewrite ?size_nseq.
  - by rewrite -map_comp map_inj_uniq ?iota_uniq // => i j.
  - apply/allP => x /mapP[i]; rewrite mem_iota add0n => /andP[_ hi] -> /=.
    by rewrite (leq_trans hi) // ltnS ni_n.
  by move=> k _; rewrite nth_nseq_nil.
have -> : run_sets (nseq n.+1 0) (input_updates cs u) = run_adds (nseq n.+1 0) (input_updates cs u).
  apply: run_sets_adds; rewrite ?size_nseq ?vars_lt //; last by move=> k _; rewrite nth_nseq if_same.
    by rewrite -map_comp map_inj_uniq ?iota_uniq // => i j.
  exact: input_updates_ok.
move: eA; rewrite run_map_adds_cat; case: (run_map_adds _ ius) => //= vA0 -> /=.
move: uA; rewrite run_adds_cat; case: (run_adds _ (input_updates cs u)) => //= At0 -> /=.
rewrite eB eC uB uC /=; eexists; eexists; split; [reflexivity|reflexivity| | |] => //= i hi.
have nil_ok j : lags_in m (nth [::] (nseq n.+1 ([::] : seq (nat * F))) j) by rewrite nth_nseq_nil.
split.
  split.
  - apply: lA => //; rewrite all_cat updates_lags andbT; apply/allP => x /mapP[j]; rewrite mem_iota add0n => /andP[_ hj] -> /=.
    by apply: leq_trans ldom; rewrite -addnA ltn_add2l addn1.
  - exact: (run_map_adds_lags (updates_lags (@rb F)) nil_ok eB).
  - exact: (run_map_adds_lags (updates_lags (@rc F)) nil_ok eC).
have [XA [eXA _ hA]] := eval_maps_spec u vA n.+1; have [XB [eXB _ hB]] := eval_maps_spec u vB n.+1.
have [XC [eXC _ hC]] := eval_maps_spec u vC n.+1.
move: evA evB evC; rewrite -/u eXA eXB eXC => -[<-] [<-] [<-].
by rewrite hA ?hB ?hC.
Qed.
End Instance.

(** ** the initial key *)
Section Initial.
Variables (F : fieldType) (G1 G2 GT : lmodType F) (e : G1 -> G2 -> GT) (g1 : G1) (g2 : G2).
Variables (cs : r1cs F) (dom : seq F).
Hypothesis wf : r1cs_wf cs.
Hypothesis udom : uniq dom.
Hypothesis ldom : (r_num_constraints cs + r_num_inputs cs + 1 <= size dom)%N.
Notation scs := (swap_AB_if_beneficial cs).
Notation n := (r_num_variables cs).
Notation ni := (r_num_inputs cs).
Notation m := (size dom).
Variables (t al b : F).

Lemma lag_sumE (V : lmodType F) (g : V) (c x : F) (mp : seq (nat * F)) : lags_in m mp ->
  lag_sum [seq (c * lagrange_eval dom t i) *: g | i <- iota 0 m] (x *: g) mp =
  Some ((x + c * mval (evaluate_all_lagrange_polynomials dom t) mp) *: g).
Proof.
rewrite /lag_sum /mval; elim: mp x => [|el mp IH] x /=; first by rewrite big_nil mulr0 addr0.
move=> /andP[h1 h2]; rewrite (vget_nth 0) ?size_map ?size_iota // (nth_map 0%N) ?size_iota // nth_iota // add0n /=.
rewrite scalerA -scalerDl IH // big_cons nth_lagrange //; congr (Some (_ *: _)).
by rewrite mulrDr addrA; congr (_ + _ + _); rewrite mulrCA [el.2 * _]mulrC.
Qed.

(** The key for a given QAP evaluation and delta. *)
Definition mpc_key (q : qap_eval F) (D : F) : g16_keypair G1 G2 GT :=
  (G16ProvingKey (al *: g1) (b *: g1) (b *: g2) (D *: g1) (D *: g2)
     (batch_exp g1 (qe_At q)) (KcVector (iota 0 n.+1) [seq (x *: g2, x *: g1) | x <- qe_Bt q] n.+1)
     (batch_exp_with_coeff g1 (zeval dom t * D^-1) (powers t (m - 1)))
     (batch_exp g1 [seq abc_at al b q (ni.+1 + i)%N * D^-1 | i <- iota 0 (n - ni)]) scs,
   G16VerificationKey (e (al *: g1) (b *: g2)) g2 (D *: g2)
     (abc_at al b q 0 *: g1) (batch_exp g1 [seq abc_at al b q i | i <- iota 1 ni])).

Lemma take_powers k l : (k <= l)%N -> take k (powers t l) = powers t k.
Proof.
move=> kl; apply: (@eq_from_nth _ 0); first by rewrite size_takel ?size_powers.
by move=> i; rewrite size_takel ?size_powers // => hi; rewrite nth_take // !nth_powers // (leq_trans hi).
Qed.

Lemma oseq_map (T U : Type) (f : T -> option U) (h : T -> U) (P : pred T) (l : seq T) :
  (forall x, P x -> f x = Some (h x)) -> all P l -> oseq [seq f x | x <- l] = Some [seq h x | x <- l].
Proof. by move=> hf; elim: l => [|x l IH] //= /andP[hx hl]; rewrite hf //= IH. Qed.

Lemma initial_keyE : exists q, qap_instance_map_with_evaluation dom scs t = Some q /\
  [/\ size (qe_At q) = n.+1, size (qe_Bt q) = n.+1, size (qe_Ct q) = n.+1,
   [/\ qe_num_inputs q = ni, qe_num_variables q = n, qe_Ht q = powers t m.+1, qe_Zt q = zeval dom t & qe_degree q = m] &
   mpc_initial_keypair e g1 g2 dom cs (tau_result_for g1 g2 dom t al b) = Some (mpc_key q 1)].
Proof.
have [h1 h2 h3 h4] := scs_basic wf.
have ld : (r_num_constraints scs + r_num_inputs scs + 1 <= m)%N by rewrite h1 h3.
have [q' [eq' [_ hq']]] := qap_shape wf ldom t.
have [qi [q [ei eq [v1 v2 v3 v4] [sA sB sC] hv]]] := qap_maps_agree h4 ld t.
move: eq'; rewrite eq => -[eq']; rewrite -{}eq' in hq'.
exists q; split=> //; move: sA sB sC v1 v2 hv; rewrite h1 h2 => sA sB sC v1 v2 hv; split=> //.
have lni : (ni <= n)%N by apply: leq_addr.
have m0 : (0 < m)%N by apply: leq_trans ldom; rewrite addn1.
rewrite /mpc_initial_keypair ei {1}/obnd v4 [size (tr_coeffs_g1 _)]size_map [size (tr_coeffs_g2 _)]size_map [size (tr_alpha_coeffs_g1 _)]size_map [size (tr_beta_coeffs_g1 _)]size_map [size (tr_h _)]size_map !size_iota !eqxx [true && _]/= v1 v2 v3.
rewrite (@oseq_map _ _ _ (fun i => (nth 0 (qe_At q) i *: g1, (nth 0 (qe_Bt q) i *: g2, nth 0 (qe_Bt q) i *: g1),
    abc_at al b q i *: g1)) (fun i => i < n.+1)%N); first last.
- by apply/allP => i; rewrite mem_iota add0n.
- move=> i hi; have [[lA lB lC] [<- mB mC]] := hv i hi.
  have l1 (V : lmodType F) (g : V) x mp : lags_in m mp ->
     lag_sum [seq lagrange_eval dom t i *: g | i <- iota 0 m] (x *: g) mp
     = Some ((x + mval (evaluate_all_lagrange_polynomials dom t) mp) *: g).
    move=> hm; rewrite -[X in (x + X) *: g]mul1r -lag_sumE //; congr lag_sum.
    by apply: eq_map => j; rewrite mul1r.
  rewrite /mpc_entry [tr_coeffs_g1 _]/= [tr_coeffs_g2 _]/= [tr_beta_coeffs_g1 _]/= [tr_alpha_coeffs_g1 _]/=.
  have l10 (V : lmodType F) (g : V) mp : lags_in m mp ->
     lag_sum [seq lagrange_eval dom t i *: g | i <- iota 0 m] 0 mp
     = Some (mval (evaluate_all_lagrange_polynomials dom t) mp *: g).
    by move=> hm; have := l1 _ g 0 mp hm; rewrite scale0r add0r.
  have l20 mp : lags_in m mp ->
     lag_sum [seq (b * lagrange_eval dom t i) *: g1 | i <- iota 0 m] 0 mp
     = Some ((b * mval (evaluate_all_lagrange_polynomials dom t) mp) *: g1).
    by move=> hm; have := @lag_sumE _ g1 b 0 mp hm; rewrite scale0r add0r.
  rewrite !l10 // l20 // /obnd lag_sumE // l1 // mB mC /abc_at.
  by have [_ [<- _ _]] := hv i hi.
have sz : size [seq (x.2 : G1) | x <- [seq (nth 0 (qe_At q) i *: g1, (nth 0 (qe_Bt q) i *: g2, nth 0 (qe_Bt q) i *: g1),
    abc_at al b q i *: g1) | i <- iota 0 n.+1]] = n.+1 by rewrite !size_map size_iota.
rewrite {1}/obnd sz add1n ltnS lni leqnn [true && _]/= -!map_comp.
rewrite (vget_nth 0) ?size_map ?size_iota // {1}/obnd (nth_map 0%N) ?size_iota // nth_iota // /mpc_key.
congr (Some (_, _)).
- rewrite /tau_result_for !scale1r invr1 mulr1; congr G16ProvingKey.
  + by rewrite -[in RHS](mkseq_nth 0 (qe_At q)) sA /batch_exp -map_comp.
  + congr KcVector; by rewrite -[in RHS](mkseq_nth 0 (qe_Bt q)) sB -map_comp.
  + rewrite [tr_h _]/= take_oversize ?size_map ?size_iota // /batch_exp_with_coeff.
    apply: (@eq_from_nth _ 0); first by rewrite !size_map size_powers size_iota.
    move=> i; rewrite size_map size_iota => hi.
    rewrite (nth_map 0%N) ?size_iota // nth_iota // (nth_map 0) ?size_powers // nth_powers // add0n.
    by rewrite mulrC.
  + rewrite addn1 -map_drop drop_iota add0n /batch_exp -map_comp.
    have -> : (n.+1 - ni.+1)%N = (n - ni)%N by [].
    rewrite -[in LHS](addn0 ni.+1) iotaDl -map_comp; apply: eq_map => i /=.
    by rewrite mulr1.
rewrite scale1r; congr G16VerificationKey.
by rewrite -map_drop drop_iota -map_take take_iota subn1 (minn_idPl _) // /batch_exp -map_comp.
Qed.
End Initial.

(** ** knowledge-commitment vectors as functions of the index *)
Section KcAt.
Variables (F : fieldType) (G1 G2 : lmodType F).
Implicit Types (v w : kc_vector G2 G1).

Lemma zip_sum (V : lmodType F) (idx : seq nat) (vals : seq (G2 * G1)) (P : pred nat) (f : nat -> G2 * G1 -> V) :
  size vals = size idx -> uniq idx ->
  \sum_(iv <- zip idx vals | P iv.1) f iv.1 iv.2 = \sum_(i <- idx | P i) f i (nth (0, 0) vals (index i idx)).
Proof.
elim: idx vals => [|i idx IH] [|x vals] //=; first by rewrite !big_nil.
move=> [hs] /andP[hi hu]; rewrite !big_cons /= eqxx IH //.
have -> : \sum_(j <- idx | P j) f j (nth (0, 0) (x :: vals) (if i == j then 0%N else (index j idx).+1))
        = \sum_(j <- idx | P j) f j (nth (0, 0) vals (index j idx)).
  rewrite big_seq_cond [RHS]big_seq_cond; apply: eq_bigr => j /andP[hj _].
  by case: (i =P j) => // e; move: hi; rewrite e hj.
by [].
Qed.

Lemma kc_sum (V : lmodType F) v lo hi (f : nat -> G2 * G1 -> V) : kc_ok v -> (forall i, f i (0, 0) = 0) ->
  \sum_(iv <- zip (kv_indices v) (kv_values v) | (lo <= iv.1 < hi)%N) f iv.1 iv.2 =
  \sum_(lo <= i < hi) f i (kc_at v i).
Proof.
case/andP=> so /eqP sz f0.
have hu : uniq (kv_indices v) by apply: sorted_uniq so; [exact: ltn_trans|exact: ltnn].
rewrite (@zip_sum _ _ _ (fun i => lo <= i < hi)%N f) //.
rewrite [RHS](bigID (fun i => i \in kv_indices v)) /= [X in _ = _ + X]big1 ?addr0; last first.
  by move=> i /negbTE hi'; rewrite /kc_at hi'.
rewrite [RHS](eq_bigr (fun i => f i (nth (0, 0) (kv_values v) (index i (kv_indices v))))); last first.
  by move=> i hi'; rewrite /kc_at hi'.
rewrite -big_filter -[RHS]big_filter; apply: perm_big; apply: uniq_perm; rewrite ?filter_uniq ?iota_uniq //.
by move=> i; rewrite !mem_filter mem_index_iota andbC.
Qed.

Lemma kc_multiexp_at v lo hi (s : seq F) : kc_ok v -> (hi <= lo + size s)%N ->
  kc_multiexp_with_mixed_addition v lo hi s =
  Some (\sum_(lo <= i < hi) nth 0 s (i - lo) *: (kc_at v i).1, \sum_(lo <= i < hi) nth 0 s (i - lo) *: (kc_at v i).2).
Proof.
move=> ok hs; rewrite kc_multiexpE //; congr (Some (_, _)).
- by rewrite (@kc_sum _ v lo hi (fun i x => nth 0 s (i - lo) *: x.1)) // => i; rewrite scaler0.
- by rewrite (@kc_sum _ v lo hi (fun i x => nth 0 s (i - lo) *: x.2)) // => i; rewrite scaler0.
Qed.

Lemma kc_multiexp_ext v w lo hi (s : seq F) : kc_ok v -> kc_ok w -> (forall i, kc_at v i = kc_at w i) ->
  (hi <= lo + size s)%N ->
  kc_multiexp_with_mixed_addition v lo hi s = kc_multiexp_with_mixed_addition w lo hi s.
Proof.
by move=> hv hw hvw hs; rewrite !kc_multiexp_at //; congr (Some (_, _)); apply: eq_bigr => i _; rewrite hvw.
Qed.

Lemma kc_vector_eqP v w : kc_vector_eq v w -> kv_domain_size v = kv_domain_size w /\ (forall i, kc_at v i = kc_at w i).
Proof.
case/andP=> /eqP h1 /allP h2; split=> // i.
case hv : (i \in kv_indices v); first by apply/eqP/h2; rewrite mem_cat hv.
case hw : (i \in kv_indices w); first by apply/eqP/h2; rewrite mem_cat hw orbT.
by rewrite /kc_at hv hw.
Qed.

Lemma kc_vector_eqxx v : kc_vector_eq v v.
Proof. by rewrite /kc_vector_eq eqxx; apply/allP => i _. Qed.

Lemma kc_at_dense (f : nat -> G2 * G1) n1 i : kc_at (KcVector (iota 0 n1) (mkseq f n1) n1) i = if (i < n1)%N then f i else (0, 0).
Proof.
rewrite /kc_at /= mem_iota add0n /=; case: ifP => // hi.
by rewrite -{1}[i](nth_iota 0 0 hi) index_uniq ?iota_uniq ?size_iota // nth_mkseq.
Qed.

Lemma kc_at_sparse (f : nat -> G2 * G1) (idx : seq nat) d i :
  kc_at (KcVector idx [seq f j | j <- idx] d) i = if i \in idx then f i else (0, 0).
Proof.
rewrite /kc_at /=; case: ifP => // hi.
by rewrite (nth_map 0%N) ?index_mem // nth_index.
Qed.
End KcAt.

(** ** the key after contributions *)
Section Key.
Variables (F : fieldType) (G1 G2 GT : lmodType F) (e : G1 -> G2 -> GT) (g1 : G1) (g2 : G2).
Hypothesis be : bilinear e.
Variables (cs : r1cs F) (dom : seq F).
Hypothesis wf : r1cs_wf cs.
Hypothesis ldom : (r_num_constraints cs + r_num_inputs cs + 1 <= size dom)%N.
Notation scs := (swap_AB_if_beneficial cs).
Notation n := (r_num_variables cs).
Notation ni := (r_num_inputs cs).
Notation m := (size dom).
Variables (t al b : F).
Notation key := (mpc_key e g1 g2 cs dom t al b).

Lemma transform_key q D d : mpc_transform_keypair (key q D) d = key q (D * d).
Proof.
rewrite /mpc_key /mpc_transform_keypair [pk_delta_g1 _]/= [pk_delta_g2 _]/= [vk_delta_g2 _]/= !scalerA [d * D]mulrC.
congr (G16ProvingKey _ _ _ _ _ _ _ _ _ _, _).
- rewrite [pk_H_query _]/= /batch_exp_with_coeff -map_comp; apply: eq_map => x /=.
  by rewrite scalerA invfM !mulrA [d^-1 * _]mulrC -!mulrA; congr ((_ * _) *: _); rewrite mulrCA.
- rewrite [pk_L_query _]/= /batch_exp -!map_comp; apply: eq_map => x /=.
  by rewrite scalerA invfM mulrCA [d^-1 * _]mulrC.
Qed.

(** The same key as the generator's with gamma = 1. *)
Lemma key_generator q D chunks : qap_instance_map_with_evaluation dom scs t = Some q ->
  size (qe_At q) = n.+1 -> size (qe_Bt q) = n.+1 -> size (qe_Ct q) = n.+1 ->
  [/\ qe_num_inputs q = ni, qe_num_variables q = n, qe_Ht q = powers t m.+1, qe_Zt q = zeval dom t & qe_degree q = m] ->
  exists2 k, g16_generator e dom cs t al b 1 D g1 g2 chunks = Some k & same_key (key q D) k /\ kc_ok (pk_B_query k.1).
Proof.
move=> eq sA sB sC [q1 q2 q3 q4 q5].
rewrite /g16_generator eq {1}/obnd kc_batch_expE {1}/obnd; eexists; first reflexivity.
have m0 : (0 < m)%N by apply: leq_trans ldom; rewrite addn1.
split; last by rewrite /kc_ok /= kc_support_ok size_map eqxx.
split=> //.
- rewrite /mpc_key scale1r invr1 mulr1 q1; congr G16VerificationKey.
  by congr batch_exp; apply: eq_map => i; rewrite mulr1.
- rewrite /mpc_key q1 q2 q3 q4; split=> //; congr batch_exp_with_coeff.
  by rewrite size_powers take_powers ?subSS // leq_subLR (leq_trans (leqnSn _)) // leq_addl.
split; first by rewrite sB.
move=> i.
have -> : kc_at (pk_B_query (key q D).1) i = if (i < n.+1)%N then (nth 0 (qe_Bt q) i *: g2, nth 0 (qe_Bt q) i *: g1) else (0, 0).
  rewrite -(kc_at_dense (fun j => (nth 0 (qe_Bt q) j *: g2, nth 0 (qe_Bt q) j *: g1)) n.+1 i).
  by congr (kc_at (KcVector _ _ _) _); rewrite -{1}(mkseq_nth 0 (qe_Bt q)) sB -map_comp.
have -> : forall x y, kc_at (pk_B_query (G16ProvingKey (al *: g1) (b *: g1) (b *: g2) (D *: g1) (D *: g2)
     (batch_exp g1 (qe_At q)) (KcVector (kc_support (qe_Bt q)) [seq kc_entry g2 g1 1 1 (qe_Bt q) j | j <- kc_support (qe_Bt q)]
     (size (qe_Bt q))) x y scs)) i = if i \in kc_support (qe_Bt q) then kc_entry g2 g1 1 1 (qe_Bt q) i else (0, 0).
  by move=> x y; rewrite -(kc_at_sparse _ _ (size (qe_Bt q))).
rewrite /kc_support mem_filter mem_iota add0n sB /= /kc_entry !mul1r; case: (ltnP i n.+1) => hi; rewrite ?andbF ?andbT //=.
by case: eqP => //= ->; rewrite !scale0r.
Qed.

Lemma witness_sizes gen (c : r1cs F) primary auxiliary d1 d2 d3 w :
  qap_witness_map dom gen c primary auxiliary d1 d2 d3 = Some w ->
  qw_num_variables w = r_num_variables c /\ qw_ABCs w = primary ++ auxiliary.
Proof.
have inv (X Y : Type) (o : option X) (f : X -> option Y) y : obnd o f = Some y -> exists x, f x = Some y.
  by case: o => [x|] //= h; exists x.
rewrite /qap_witness_map; move=> h; do 9 (have [? {}h] := inv _ _ _ _ _ h).
by case: h => <-.
Qed.

(** Equal keys make equal proofs. *)
Lemma same_prover gen (k k' : g16_keypair G1 G2 GT) primary auxiliary r s :
  kc_ok (pk_B_query k.1) -> kc_ok (pk_B_query k'.1) -> same_key k k' ->
  pk_constraint_system k'.1 = scs -> size primary = ni -> (size primary + size auxiliary)%N = n ->
  g16_prover dom gen k.1 primary auxiliary r s = g16_prover dom gen k'.1 primary auxiliary r s.
Proof.
move=> ok ok' [_ [a1 a2 a3 a4 a5] [a6 a7 a8] [_ hB] a9] ecs sp sn.
rewrite /g16_prover a1 a2 a3 a4 a5 a6 a7 a8 a9; case ew : (qap_witness_map _ _ _ _ _ _ _ _) => [w|] //; rewrite {1}/obnd {2}/obnd.
rewrite (kc_multiexp_ext ok ok' hB) //.
have [h1 h2 h3 h4] := scs_basic wf.
have [e1 e2] := witness_sizes ew; rewrite e1 e2 ecs h2 add0n size_take_min /= size_cat sn.
by rewrite (minn_idPl _).
Qed.

(** *** the chain of public keys *)
Variables (bf : seq nat -> nat) (rg : nat -> G2) (ser : G1 -> seq nat) (mt : r1cs F -> option (mpc_public_key G1 G2) -> seq nat).
Notation chain := (mpc_check_chain e bf rg ser mt).
Notation contribute := (mpc_contribute g1 bf rg ser mt).
Implicit Types (pks : seq (mpc_public_key G1 G2)).

Definition last_key pks := if pks is p :: pks' then Some (last p pks') else None.

Lemma last_key_rcons pks p : last_key (rcons pks p) = Some p.
Proof. by case: pks => [|p' pks] //=; rewrite last_rcons. Qed.

Lemma chain_rcons c o cur pks p : chain c (mt c o) cur (rcons pks p) =
  if chain c (mt c o) cur pks is Some cur' then
    chain c (mt c (if last_key pks is Some p' then Some p' else o)) cur' [:: p]
  else None.
Proof.
elim: pks o cur => [|p' pks IH] o cur //.
rewrite rcons_cons [LHS]/= [chain _ _ _ (p' :: pks)]/=; case: ifP => // _; case: ifP => // _.
rewrite IH; case: (chain _ _ _ _) => // cur'.
by case: pks {IH} => [|p2 pks].
Qed.

(** The state of an honest ceremony. *)
Lemma ceremony_state q c (xs : seq (F * G1)) : c = scs ->
  let D := \prod_(x <- xs) x.1 in
  exists pks, [/\ mpc_ceremony g1 bf rg ser mt (key q 1) xs = (key q D, pks),
    chain c (mt c None) g1 pks = Some (D *: g1), size pks = size xs &
    (if last_key pks is Some p then mp_delta_after p else g1) = D *: g1].
Proof.
move=> hc /=; rewrite /mpc_ceremony; elim/last_ind: xs => [|xs x [pks [IH1 IH2 IH3 IH4]]].
  by exists [::]; rewrite big_nil /= scale1r.
rewrite -cats1 foldl_cat IH1 [foldl _ _ [:: x]]/= big_cat big_seq1.
rewrite -[match pks with [::] => _ | p :: pks' => _ end]/(last_key pks).
eexists; split; [by congr pair; exact: transform_key| |by rewrite size_rcons size_cat IH3 addn1|]; last first.
  by rewrite last_key_rcons /mpc_proof_eval /mp_delta_after IH4 scalerA mulrC.
rewrite chain_rcons IH2 hc.
set o := if last_key pks is Some p' then Some p' else None.
have -> : o = last_key pks by rewrite /o; case: (last_key pks).
have ep : mpc_proof_eval g1 bf rg ser mt x.2 x.1 (last_key pks) (key q (\prod_(x0 <- xs) x0.1)) =
  MpcPublicKey (x.1 *: (\prod_(x0 <- xs) x0.1 *: g1)) (pok_proof_eval bf rg ser x.2 x.1 (mt scs (last_key pks)) 0).
  by rewrite /mpc_proof_eval IH4.
rewrite ep /mpc_check_chain [mp_pok _]/= pok_ok // [mp_delta_after _]/=.
by rewrite [pok_g2_s_x _]/= same_ratio_scale //= scalerA mulrC.
Qed.

Lemma r1cs_eqxx (c : r1cs F) : r1cs_eq c c.
Proof. by rewrite /r1cs_eq !eqxx. Qed.

Lemma r1cs_eqP (c d : r1cs F) : r1cs_eq c d -> c = d.
Proof. by case: c => ? ? ?; case: d => ? ? ? /and3P[/eqP /= -> /eqP /= -> /eqP /= ->]. Qed.

Lemma merge_scaled rnd off (v : seq G1) D : D != 0 ->
  exists h, [/\ merge_pairs rnd off v [seq D^-1 *: x | x <- v] = Some h & is_same_ratio e h (D *: g2, g2)].
Proof.
move=> D0; rewrite /merge_pairs size_map eqxx multiexp_scale; eexists; split; first reflexivity.
by rewrite /is_same_ratio /= (e_scalel be) (e_scaler be) scalerA mulVf // scale1r.
Qed.

Lemma queries_scaled q D : pk_H_query (key q D).1 = [seq D^-1 *: x | x <- pk_H_query (key q 1).1] /\
  pk_L_query (key q D).1 = [seq D^-1 *: x | x <- pk_L_query (key q 1).1].
Proof. by have := transform_key q 1 D; rewrite mul1r => <-. Qed.

Lemma verify_honest_key rnd q pks D r : D != 0 ->
  mpc_initial_keypair e g1 g2 dom cs r = Some (key q 1) ->
  chain scs (mt scs None) g1 pks = Some (D *: g1) ->
  mpc_verify_eval e g1 g2 bf rg ser mt rnd dom (key q D) pks cs r = Some true.
Proof.
move=> D0 ei hc; rewrite /mpc_verify_eval ei {1}/obnd.
have [-> ->] := queries_scaled q D; rewrite !size_map !eqxx.
rewrite -[pk_constraint_system (key q D).1]/scs hc.
rewrite -[pk_B_query (key q D).1]/(pk_B_query (key q 1).1) kc_vector_eqxx r1cs_eqxx.
have h3 : is_same_ratio e (g1, D *: g1) (g2, pk_delta_g2 (key q D).1) by apply: same_ratio_scale.
rewrite eqxx h3 {1 2 3 4 5 6 7 8 9 10 11 12 13 14}/negb [true && true]/=.
have [h [-> hh]] := merge_scaled rnd 0 (pk_H_query (key q 1).1) D0; rewrite {1}/obnd.
rewrite -[pk_delta_g2 (key q D).1]/(D *: g2) hh {1}/negb.
have [l [-> hl]] := merge_scaled rnd (size (powers t (m - 1))) (pk_L_query (key q 1).1) D0; rewrite {1}/obnd.
by rewrite hl.
Qed.

(** *** soundness *)
Hypothesis nd : e g1 g2 != 0.
Hypotheses (gen1 : generates g1) (gen2 : generates g2).
Hypothesis seeds : forall s, rg s != 0.

Lemma chain_sound c tr D pks D' : chain c tr (D *: g1) pks = Some D' ->
  exists ds, [/\ size ds = size pks, D' = (D * \prod_(d <- ds) d) *: g1 &
    forall i p, vget pks i = Some p ->
      mp_delta_after p = (D * \prod_(d <- take i.+1 ds) d) *: g1 /\
      pok_g1_s_x (mp_pok p) = nth 0 ds i *: pok_g1_s (mp_pok p)].
Proof.
elim: pks tr D => [|p pks IH] tr D.
  by move=> [<-]; exists [::]; rewrite big_nil mulr1; split.
rewrite /=; set g2s := compute_g2_s _ _ _ _ _ _ _.
case: ifP => // /negbFE h1; case: ifP => // /negbFE h2.
have [z ez] := gen2 g2s; have z0 : z != 0.
  by apply/eqP => z0; move: (seeds (bf (0%N :: tr))); rewrite -[rg _]/g2s ez z0 scale0r eqxx.
have [y ey] := gen2 (pok_g2_s_x (mp_pok p)); have [a ea] := gen1 (pok_g1_s (mp_pok p)).
have [a' ea'] := gen1 (pok_g1_s_x (mp_pok p)); have [d ed] := gen1 (mp_delta_after p).
have r1 : a * y = a' * z.
  by apply: (ratioE be nd); move: h1; rewrite /pok_verify_with /is_same_ratio /= ea ea' ey ez.
have r2 : D * y = d * z by apply: (ratioE be nd); rewrite -ed -ey -ez.
have d1 : d = D * (y / z) by rewrite mulrA r2 mulfK.
rewrite ed d1 => /IH [ds [sds -> hds]]; exists (y / z :: ds); split=> /=; first by rewrite sds.
  by rewrite big_cons -mulrA.
move=> [|i] p' /=; last by move=> /hds [-> ->]; rewrite big_cons -mulrA.
move=> [<-]; rewrite take0 big_cons big_nil mulr1 ed d1; split=> //.
by rewrite ea ea' scalerA mulrAC -[y * a]mulrC r1 mulfK.
Qed.

Lemma merge_sound rnd off (v w : seq F) D h : size v = size w ->
  merge_pairs rnd off [seq x *: g1 | x <- v] [seq x *: g1 | x <- w] = Some h ->
  is_same_ratio e h (D *: g2, g2) -> combo rnd off (mkseq (fun i => nth 0 v i - nth 0 w i * D) (size v)) = 0.
Proof.
move=> sz; rewrite /merge_pairs !size_map sz eqxx => -[<-].
rewrite multiexp_combo -{1}sz multiexp_combo => hr.
have : combo rnd off v * 1 = combo rnd off w * D by apply: (ratioE be nd); rewrite scale1r.
rewrite mulr1 /combo size_mkseq sz => hc.
rewrite (eq_bigr (fun i : 'I_(size w) => nth 0 v i * rnd (off + i)%N - nth 0 w i * rnd (off + i)%N * D)); last first.
  by move=> i _; rewrite nth_mkseq // mulrBl mulrAC.
by rewrite sumrB -mulr_suml hc subrr.
Qed.

(** What acceptance says. *)
Lemma verify_inv rnd q (k : g16_keypair G1 G2 GT) pks r i0 : mpc_initial_keypair e g1 g2 dom cs r = Some i0 -> i0 = key q 1 ->
  mpc_verify_eval e g1 g2 bf rg ser mt rnd dom k pks cs r = Some true ->
  [/\ [/\ size (pk_H_query i0.1) = size (pk_H_query k.1), size (pk_L_query i0.1) = size (pk_L_query k.1),
       pk_alpha_g1 i0.1 = pk_alpha_g1 k.1, pk_beta_g1 i0.1 = pk_beta_g1 k.1 & pk_beta_g2 i0.1 = pk_beta_g2 k.1],
   [/\ pk_A_query i0.1 = pk_A_query k.1, kc_vector_eq (pk_B_query i0.1) (pk_B_query k.1),
       pk_constraint_system i0.1 = pk_constraint_system k.1, vk_alpha_g1_beta_g2 i0.2 = vk_alpha_g1_beta_g2 k.2
     & vk_gamma_g2 i0.2 = vk_gamma_g2 k.2],
   [/\ vk_gamma_ABC_first i0.2 = vk_gamma_ABC_first k.2, vk_gamma_ABC_rest i0.2 = vk_gamma_ABC_rest k.2,
       chain (pk_constraint_system k.1) (mt (pk_constraint_system k.1) None) g1 pks = Some (pk_delta_g1 k.1),
       is_same_ratio e (g1, pk_delta_g1 k.1) (g2, pk_delta_g2 k.1) & pk_delta_g2 k.1 = vk_delta_g2 k.2],
   exists2 h, merge_pairs rnd 0 (pk_H_query i0.1) (pk_H_query k.1) = Some h & is_same_ratio e h (pk_delta_g2 k.1, g2) &
   exists2 l, merge_pairs rnd (size (pk_H_query i0.1)) (pk_L_query i0.1) (pk_L_query k.1) = Some l
     & is_same_ratio e l (pk_delta_g2 k.1, g2)].
Proof.
move=> ei _; rewrite /mpc_verify_eval ei {1}/obnd.
case: eqP => [h1|//]; case: eqP => [h2|//]; case: eqP => [h3|//]; case: eqP => [h4|//]; case: eqP => [h5|//].
case: eqP => [h6|//]; case: ifP => [//|/negbFE h7]; case: ifP => [//|/negbFE h8]; case: eqP => [h9|//]; case: eqP => [h10|//].
case: ifP => [//|/negbFE /andP[/eqP h11 /eqP h12]]; case h13 : (mpc_check_chain _ _ _ _ _ _ _ _ _) => [cur|] //.
case: eqP => [h14|//]; case: ifP => [//|/negbFE h15]; case: eqP => [h16|//].
case h17 : (merge_pairs _ _ _ _) => [h|] //; rewrite {1}/obnd; case: ifP => [//|/negbFE h18].
case h19 : (merge_pairs _ _ _ _) => [l|] //; rewrite {1}/obnd; case: ifP => [//|/negbFE h20] _.
split; [by split|split=> //; exact: r1cs_eqP|by rewrite -h14; split|by exists h|by exists l].
Qed.

Lemma verify_intro rnd (k : g16_keypair G1 G2 GT) pks r i0 : mpc_initial_keypair e g1 g2 dom cs r = Some i0 ->
  [/\ [/\ size (pk_H_query i0.1) = size (pk_H_query k.1), size (pk_L_query i0.1) = size (pk_L_query k.1),
       pk_alpha_g1 i0.1 = pk_alpha_g1 k.1, pk_beta_g1 i0.1 = pk_beta_g1 k.1 & pk_beta_g2 i0.1 = pk_beta_g2 k.1],
   [/\ pk_A_query i0.1 = pk_A_query k.1, kc_vector_eq (pk_B_query i0.1) (pk_B_query k.1),
       pk_constraint_system i0.1 = pk_constraint_system k.1, vk_alpha_g1_beta_g2 i0.2 = vk_alpha_g1_beta_g2 k.2
     & vk_gamma_g2 i0.2 = vk_gamma_g2 k.2],
   [/\ vk_gamma_ABC_first i0.2 = vk_gamma_ABC_first k.2, vk_gamma_ABC_rest i0.2 = vk_gamma_ABC_rest k.2,
       chain (pk_constraint_system k.1) (mt (pk_constraint_system k.1) None) g1 pks = Some (pk_delta_g1 k.1),
       is_same_ratio e (g1, pk_delta_g1 k.1) (g2, pk_delta_g2 k.1) & pk_delta_g2 k.1 = vk_delta_g2 k.2],
   exists2 h, merge_pairs rnd 0 (pk_H_query i0.1) (pk_H_query k.1) = Some h & is_same_ratio e h (pk_delta_g2 k.1, g2) &
   exists2 l, merge_pairs rnd (size (pk_H_query i0.1)) (pk_L_query i0.1) (pk_L_query k.1) = Some l
     & is_same_ratio e l (pk_delta_g2 k.1, g2)] ->
  mpc_verify_eval e g1 g2 bf rg ser mt rnd dom k pks cs r = Some true.
Proof.
move=> ei [[h1 h2 h3 h4 h5] [h6 h7 h8 h9 h10] [h11 h12 h13 h14 h15] [h mh rh] [l ml rl]].
by rewrite /mpc_verify_eval ei {1}/obnd h13 mh {1}/obnd ml {1}/obnd h1 h2 h3 h4 h5 h6 h7 h8 h9 h10 h11 h12 h14 rh rl h15 !eqxx r1cs_eqxx.
Qed.

Lemma key_sound q (k : g16_keypair G1 G2 GT) pks r : mpc_initial_keypair e g1 g2 dom cs r = Some (key q 1) ->
  pk_delta_g1 k.1 != 0 ->
  (exists ds, let D := \prod_(d <- ds) d in
    [/\ same_key k (key q D), D != 0, size ds = size pks &
      forall i p, vget pks i = Some p ->
      mp_delta_after p = (\prod_(d <- take i.+1 ds) d) *: g1 /\
      pok_g1_s_x (mp_pok p) = nth 0 ds i *: pok_g1_s (mp_pok p)]) \/
  rarely_accepts (fun rnd => mpc_verify_eval e g1 g2 bf rg ser mt rnd dom k pks cs r).
Proof.
move=> ei d0.
have [u eu] := generates_seq (pk_H_query (key q 1).1) gen1; have [v ev] := generates_seq (pk_L_query (key q 1).1) gen1.
have [u' eu'] := generates_seq (pk_H_query k.1) gen1; have [v' ev'] := generates_seq (pk_L_query k.1) gen1.
have [D eD] := gen1 (pk_delta_g1 k.1).
have D0 : D != 0 by apply/eqP => z; move: d0; rewrite eD z scale0r eqxx.
pose dh := mkseq (fun i => nth 0 u i - nth 0 u' i * D) (size u).
pose dl := mkseq (fun i => nth 0 v i - nth 0 v' i * D) (size v).
have [x ex] := gen2 (pk_delta_g2 k.1).
have fact rnd : mpc_verify_eval e g1 g2 bf rg ser mt rnd dom k pks cs r = Some true ->
    combo rnd 0 dh = 0 /\ combo rnd (size u) dl = 0.
  move=> hv; have [[s1 s2 _ _ _] _ [_ _ _ h4 _] [h mh rh] [l ml rl]] := verify_inv ei (erefl _) hv.
  have xD : x = D by move: h4; rewrite eD ex -{1}[g1]scale1r -{1}[g2]scale1r => /(ratioE be nd); rewrite mul1r mulr1.
  move: rh rl; rewrite ex xD => rh rl.
  move: mh ml s1 s2; rewrite eu eu' ev ev' !size_map => mh ml s1 s2.
  by split; [apply: (merge_sound s1 mh rh)|apply: (merge_sound s2 ml rl)].
case hh : (all (fun x => x == 0) dh); last first.
  by right; apply: (@combo_rarely _ 0 dh); rewrite ?hh // => rnd /fact[].
case hl : (all (fun x => x == 0) dl); last first.
  by right; apply: (@combo_rarely _ (size u) dl); rewrite ?hl // => rnd /fact[].
case acc : (mpc_verify_eval e g1 g2 bf rg ser mt (fun=> 0) dom k pks cs r == Some true); last first.
  right; exists 0%N => rnd c hv _; exfalso; move: acc => /eqP; apply; apply: (verify_intro ei).
  have [p1 p2 p3 [h mh rh] [l ml rl]] := verify_inv ei (erefl _) hv.
  have m0 (off : nat) (a c' : seq G1) z : size a = size c' -> exists2 h, merge_pairs (fun=> 0 : F) off a c' = Some h & is_same_ratio e h (z, g2).
    move=> sz; rewrite /merge_pairs sz eqxx; eexists; first reflexivity.
    have z1 (w : seq G1) j : multiexp w (mkseq (fun=> 0 : F) j) = 0.
      rewrite (@KcProofs.multiexpE _ _ _ _ (size w)) ?leqnn // big1 // => i _.
      have -> : nth 0 (mkseq (fun=> 0 : F) j) i = 0; last by rewrite scale0r.
      by case: (ltnP i j) => hi; [rewrite nth_mkseq|rewrite nth_default ?size_mkseq].
    by rewrite /is_same_ratio /= !z1 -(scale0r g1) !(e_scalel be) !scale0r.
  by case: (p1) => s1 s2 _ _ _; split=> //; apply: m0.
move/eqP: acc => hv; left.
have [[s1 s2 h3 h4 h5] [h6 h7 h8 h9 h10] [h11 h12 h13 h14 h15] _ _] := verify_inv ei (erefl _) hv.
have := h13; rewrite -{1}[g1]scale1r => /chain_sound [ds [sds hD hds]].
rewrite mul1r in hD; exists ds => /=.
have eDD : D = \prod_(d <- ds) d.
  apply/eqP; rewrite -subr_eq0; have : (D - \prod_(d <- ds) d) *: g1 == 0 by rewrite scalerBl subr_eq0 -eD hD.
  rewrite scaler_eq0; case/orP => // /eqP g0; by move: nd; rewrite g0 -(scale0r g1) (e_scalel be) scale0r eqxx.
have xD : x = D by move: h14; rewrite eD ex -{1}[g1]scale1r -{1}[g2]scale1r => /(ratioE be nd); rewrite mul1r mulr1.
rewrite -eDD; split=> //; last by move=> i p /hds; rewrite mul1r.
have scaled (w w' : seq F) : size w = size w' -> all (fun x => x == 0) (mkseq (fun i => nth 0 w i - nth 0 w' i * D) (size w)) ->
   [seq y *: g1 | y <- w'] = [seq D^-1 *: y | y <- [seq y *: g1 | y <- w]].
  move=> sz /allP hz; rewrite -map_comp; apply: (@eq_from_nth _ 0); rewrite !size_map // => i hi.
  rewrite !(nth_map 0) ?sz //= scalerA; congr (_ *: _).
  have -> : nth 0 w i = nth 0 w' i * D; last by rewrite mulrC mulfK.
  apply/eqP; rewrite -subr_eq0; apply: hz; apply/mapP; exists i; rewrite // mem_iota add0n sz; exact: hi.
have [qH qL] := queries_scaled q D.
have [hB1 hB2] := kc_vector_eqP h7.
split.
- move: h9 h10 h11 h12 h15; rewrite ex xD; case: (k.2) => ? ? ? ? ? /= <- <- <- <- <-; by [].
- by rewrite -h3 -h4 -h5 eD ex xD.
- rewrite -h6 qH qL eu ev eu' ev'; split=> //; apply: scaled => //.
    by move: s1; rewrite eu eu' !size_map.
  by move: s2; rewrite ev ev' !size_map.
- by split=> [|i]; rewrite -?hB1 -?hB2.
- by rewrite -h8.
Qed.
End Key.

Lemma same_key_trans (F : fieldType) (G1 G2 GT : lmodType F) (x y z : g16_keypair G1 G2 GT) :
  same_key x y -> same_key y z -> same_key x z.
Proof.
move=> [a1 [b1 b2 b3 b4 b5] [c1 c2 c3] [d1 d2] e1] [a1' [b1' b2' b3' b4' b5'] [c1' c2' c3'] [d1' d2'] e1'].
split; [by rewrite a1|by rewrite b1 b2 b3 b4 b5; split|by rewrite c1 c2 c3; split| |by rewrite e1].
by split=> [|i]; rewrite ?d1 ?d2.
Qed.
