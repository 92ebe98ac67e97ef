(** Proofs about the batched KZG schemes. *)
From mathcomp Require Import all_ssreflect all_algebra.
From Verif.Model Require Import Base Domain KnowledgeCommitment OrderedMap Transcript PolysEvaluator Kzg PlonkTable.
From Verif.Spec Require Import GroupSpec.
From Verif.Proofs Require Import NatTac DomainProofs KcProofs PermProofs TableProofs KzgProofs EvaluatorProofs FieldTac.
Set Implicit Arguments.
Unset Strict Implicit.
Unset Printing Implicit Defensive.
Import GRing.Theory.
Local Open Scope ring_scope.

Local Arguments powers_of : simpl never.

Lemma mem_nthP (T : eqType) (x0 : T) s i : (i < size s)%N -> nth x0 s i \in s.
Proof. exact: mem_nth. Qed.

Section Scheme.
Variables (F : fieldType) (G1 G2 GT : lmodType F) (e : G1 -> G2 -> GT) (g1 : G1) (g2 : G2).
Add Field Ff_kzgb : (@ffield_theory F).
Hypothesis be : bilinear e.
Variables (B : Type) (hash : seq B -> seq B) (dtf : seq B -> F).
Variables (enc_g1 : G1 -> seq B) (dec_g1 : seq B -> option G1) (enc_f : F -> seq B) (lenB : nat).
Hypothesis dec_enc : forall x, dec_g1 (enc_g1 x) = Some x.
Hypothesis enc_size : forall x, size (enc_g1 x) = lenB.

Lemma ring_id1 (a b c c' : F) : a * b * (c * c') - b * c' * (a * c) = 0. Proof. by fring F. Qed.
Lemma blob_at (cs : seq G1) i : (i < size cs)%N ->
  blob_commitment dec_g1 (flatten [seq enc_g1 c | c <- cs]) (size cs) i = Some (nth 0 cs i).
Proof.
have hs (l : seq G1) : size (flatten [seq enc_g1 c | c <- l]) = (size l * lenB)%N.
  by elim: l => //= c l ih; rewrite size_cat enc_size ih mulSn.
move=> hi; rewrite /blob_commitment hs mulKn; last by apply: leq_ltn_trans hi.
rewrite -{1}(cat_take_drop i cs) map_cat flatten_cat drop_cat hs size_takel; last exact: ltnW.
rewrite ltnn subnn drop0 (drop_nth 0 hi) /= take_cat enc_size ltnn subnn take0 cats0.
exact: dec_enc.
Qed.

Variables (d t : nat) (alpha : F).
Notation params := (bkzg_setup g1 g2 d t alpha).
Variables (polys : omapT (seq {poly F})) (points : omapT (seq (seq F))) (commitments : omapT (seq B)).
Hypothesis sp : sorted ltn (om_keys polys).
Hypothesis kk : om_keys points = om_keys polys.
Hypothesis kc : om_keys commitments = om_keys polys.
Hypothesis ss : forall k, size (odflt [::] (om_get points k)) = nP polys k.
Hypothesis hc : forall k ps, om_get polys k = Some ps ->
  om_get commitments k = Some (flatten [seq enc_g1 (p.[alpha] *: g1) | p : {poly F} <- ps]).
Notation Pq := (Pq polys). Notation Sq := (Sq points). Notation Uq := (Uq polys points). Notation idxs := (idxs polys).
Hypothesis hP : forall ki, ki \in idxs -> (size (Pq ki) <= d)%N.
Hypothesis hS : forall ki, ki \in idxs -> uniq (Sq ki) /\ (size (Sq ki) <= d)%N.

Notation upd := (kzg_update_transcript hash enc_f).
Lemma upd_same (s s' : kzg_scheme G1 G2 B) tr k : ev_z (ks_ev s) = ev_z (ks_ev s') -> ev_points (ks_ev s) = ev_points (ks_ev s') ->
  ks_commitments s = ks_commitments s' -> upd s tr k = upd s' tr k.
Proof. by move=> h1 h2 h3; rewrite /kzg_update_transcript /get_U h1 h2 h3. Qed.
Lemma upd_def z l ps (pr : bkzg_params G1 G2) : {in om_keys polys, forall k, om_get z k = Some (zval polys points k)} ->
  forall tr, exists tr', ofold (upd (KzgScheme pr (Evaluator z ps l points) commitments)) tr (om_keys polys) = Some tr'.
Proof.
move=> hz tr.
suff H : {in om_keys polys, forall k tr, exists tr', upd (KzgScheme pr (Evaluator z ps l points) commitments) tr k = Some tr'}.
  elim: (om_keys polys) tr H => [|k ks ih] tr H /=; first by exists tr.
  have [tr1 ->] := H k (mem_head _ _) tr; apply: ih => k' hk'; apply: H.
  by rewrite inE hk' orbT.
move=> k hk tr1; have [pts ep spt] := points_at kk ss hk.
rewrite /kzg_update_transcript /= hz //= ep /= (omapM_some (g := fun i => Uq (k, i))) /=; first by eexists.
by move=> i; rewrite mem_iota add0n => hi; apply: get_UE => //; rewrite idxsP hk -spt.
Qed.

Let ev0 z l := Evaluator z polys l points.
Notation merged := (kzg_merged_points (Evaluator [::] polys [::] points)).
Hypothesis hT : (size merged <= t)%N.

Lemma merged_uniq : uniq merged. Proof. exact: undup_uniq. Qed.
Lemma mem_merged ki : ki \in idxs -> {subset Sq ki <= merged}.
Proof.
case: ki => k i; rewrite idxsP => /andP[hk hi] x hx.
have [pts ep spt] := points_at kk ss hk.
rewrite /kzg_merged_points /merge_points mem_undup /=; apply/flattenP; exists (Sq (k, i)) => //.
apply/flattenP; exists pts; last by rewrite /EvaluatorProofs.Sq /= ep /= mem_nth ?spt.
elim: points ep => //= -[k1 y] m ih; case: eqP => [_ [->]|_ h]; first exact: mem_head.
by rewrite inE ih ?orbT.
Qed.
Definition Dq ki := zpoly (set_difference merged (Sq ki)).
Lemma Dq_mul ki : ki \in idxs -> Dq ki * zpoly (Sq ki) = zpoly merged.
Proof. by move=> h; apply: zpoly_diff; [exact: merged_uniq | exact: (hS h).1 | exact: mem_merged]. Qed.
Lemma diffE ki : ki \in idxs -> kzg_difference_polynom merged (Sq ki) = Some (Dq ki).
Proof.
move=> h; rewrite /kzg_difference_polynom !get_VE Dq_mul // eqxx /Dq.
by case: (set_difference merged (Sq ki)) => //=; rewrite /zpoly big_nil.
Qed.
Lemma size_Dq ki : (size (Dq ki) <= t.+1)%N.
Proof. by rewrite /Dq size_zpoly ltnS (leq_trans _ hT) // size_filter count_size. Qed.
Definition Qq ki := (Pq ki - Uq ki) %/ zpoly (Sq ki).
Lemma QqK ki : ki \in idxs -> Qq ki * zpoly (Sq ki) = Pq ki - Uq ki.
Proof. by move=> h; rewrite divpK // Upoly_dvd //; exact: (hS h).1. Qed.
Lemma size_Qq ki : ki \in idxs -> (size (Qq ki) <= d)%N.
Proof. by move=> h; apply: size_quot; [exact: hP | exact: (hS h).2]. Qed.
Lemma size_sumd n (f : 'I_n -> {poly F}) : (forall i, (size (f i) <= d)%N) -> (size (\sum_i f i)%R <= d)%N.
Proof.
move=> h; apply: (big_ind (fun p : {poly F} => size p <= d)%N); rewrite ?size_poly0 // => p q hp hq.
by apply: leq_trans (size_add _ _) _; rewrite geq_max hp.
Qed.
Lemma cAt ki : ki \in idxs -> exists2 batch, om_get points ki.1 = Some batch &
  exists2 blob, om_get commitments ki.1 = Some blob &
  blob_commitment dec_g1 blob (size batch) ki.2 = Some ((Pq ki).[alpha] *: g1) /\ vget batch ki.2 = Some (Sq ki).
Proof.
case: ki => k i; rewrite idxsP => /andP[hk hi] /=.
have [pts ep spt] := points_at kk ss hk; have [ps ep' sps] := polys_at hk.
exists pts => //; exists (flatten [seq enc_g1 (p.[alpha] *: g1) | p : {poly F} <- ps]); first exact: hc.
split; last by rewrite (vget_nth [::]) ?spt // /EvaluatorProofs.Sq /= ep.
have := @blob_at [seq p.[alpha] *: g1 | p : {poly F} <- ps] i.
rewrite size_map sps spt -map_comp => /(_ hi) -> ; rewrite (nth_map 0) ?sps //.
by rewrite /EvaluatorProofs.Pq /= ep'.
Qed.

(** *** Version 1 *)
Lemma kzg_v1_honest z l zv pv lv cv tr :
  exists z' pi tr', [/\ kzg_scheme_proof_eval hash dtf enc_f (KzgScheme params (Evaluator z polys l points) commitments) tr
     = Some ((z', pi), tr'),
   forall k, om_get z' k = if k \in om_keys polys then Some (zval polys points k) else om_get z k &
   kzg_scheme_verify_eval e hash dtf dec_g1 enc_f (KzgScheme params (Evaluator zv pv lv points) cv) (z', pi) commitments tr
     = Some (true, tr')].
Proof.
have [z' ez hz'] := eval_polys_all sp kk ss z l.
have hz : {in om_keys polys, forall k, om_get z' k = Some (zval polys points k)} by move=> k hk; rewrite hz' hk.
rewrite /kzg_scheme_proof_eval /= ez /= kc.
have [tr1 e1] := upd_def l polys params hz tr; rewrite e1 /=.
have hidx := @batch_indicesE (fun k => omap size (om_get z' k)) (nP polys) (om_keys polys).
rewrite hidx /=; last by move=> k hk; rewrite hz //= size_zval.
rewrite (@power_loopE F _ _ _ (fun c ki => c *: Qq ki)) /=; last first.
  move=> ki hki c; rewrite (idx_poly hki) /= (get_UE kk ss _ _ hz) -?surjective_pairing //=.
  by rewrite (idx_points kk ss hki) /= get_VE divpZl.
set gamma := dtf _; set acc := \sum_(j < _) _.
have hin (j : 'I_(size idxs)) : nth (0, 0)%N idxs j \in idxs by apply: mem_nth.
have sacc : (size acc <= d)%N.
  by apply: size_sumd => j; apply: leq_trans (size_scale_leq _ _) _; apply: size_Qq.
rewrite commit_withE //=; exists z', (acc.[alpha] *: g1), (hash tr1); split=> //; clear hz'.
rewrite /kzg_scheme_verify_eval /= kc.
rewrite (@eq_in_ofold _ _ _ (upd (KzgScheme params (Evaluator z' polys l points) commitments))); last first.
  by move=> k _ c; apply: upd_same.
rewrite e1 /=.
have hidx' := @batch_indicesE (fun k => omap size (om_get points k)) (nP polys) (om_keys polys).
rewrite hidx' /=; last by move=> k hk; have [pts -> <-] := points_at kk ss hk.
rewrite (@power_loopE F _ _ _ (fun c ki => e (c *: ((Pq ki).[alpha] *: g1 - (Uq ki).[alpha] *: g1)) ((Dq ki).[alpha] *: g2))) /=; last first.
  move=> ki hki c; have [batch -> [blob -> /= [-> /= es]]] := cAt hki.
  rewrite (get_UE kk ss _ _ hz) -?surjective_pairing //= commit_withE /=; last first.
    by apply: leq_trans (Upoly_size _ _) _; exact: (hS hki).2.
  rewrite es /= -[kzg_merged_points _]/merged diffE //= commit_withE //.
  exact: size_Dq.
rewrite commit_withE /=; last by rewrite get_VE size_zpoly.
congr (Some (_, _)); apply/eqP; rewrite get_VE -[kzg_merged_points _]/merged -/gamma /acc horner_sum scaler_suml (e_suml be).
rewrite -/idxs; apply: eq_bigr => j _; rewrite -scalerBl scalerA !(ess _ _ be) hornerZ -!mulrA.
congr (_ *: _); congr (_ * _).
rewrite -(Dq_mul (hin j)) hornerM mulrCA -hornerM QqK //.
by rewrite !hornerE mulrC.
Qed.
Lemma kzg_v1_complete z l pv lv tr :
  exists z' pi tr', kzg_scheme_proof_eval hash dtf enc_f (KzgScheme params (Evaluator z polys l points) commitments) tr
     = Some ((z', pi), tr') /\
   kzg_scheme_verify_eval e hash dtf dec_g1 enc_f (KzgScheme params (Evaluator [::] pv lv points) [::]) (z', pi) commitments tr
     = Some (true, tr').
Proof. by have [z' [pi [tr' [h1 _ h2]]]] := kzg_v1_honest z l [::] pv lv [::] tr; exists z', pi, tr'. Qed.

(** *** Version 2 *)
Notation params2 := (kzg_v2_create_params g1 g2 d alpha).
Lemma pi2_id (L : {poly F}) x : L.[x] = 0 -> (L %/ ('X - x%:P)).[alpha] * (alpha - x) = L.[alpha].
Proof.
move=> h; have hd : 'X - x%:P %| L by rewrite dvdp_XsubCl; apply/eqP.
by rewrite -(hornerXsubC x alpha) -hornerM divpK.
Qed.
Lemma kzg_v2_honest z l zv pv lv cv tr : {in om_keys polys, forall k, nP polys k != 0%N} ->
  exists z' pi1 pi2 tr', [/\ kzg_v2_proof_eval hash dtf enc_g1 enc_f (KzgScheme params2 (Evaluator z polys l points) commitments) tr
     = Some ((z', pi1, pi2), tr_absorb hash tr' (enc_g1 pi2)),
   forall k, om_get z' k = if k \in om_keys polys then Some (zval polys points k) else om_get z k &
   kzg_v2_verify_eval e g1 g2 hash dtf enc_g1 dec_g1 enc_f (KzgScheme params2 (Evaluator zv pv lv points) cv) (z', pi1, pi2) commitments tr
     = Some (true, tr')].
Proof.
move=> hn; have [z' ez hz'] := eval_polys_all sp kk ss z l.
have hz : {in om_keys polys, forall k, om_get z' k = Some (zval polys points k)} by move=> k hk; rewrite hz' hk.
rewrite /kzg_v2_proof_eval /= ez /= kc.
have [tr1 e1] := upd_def l polys params2 hz tr; rewrite e1 /=.
have hidx := @batch_indicesE (fun k => omap size (om_get z' k)) (nP polys) (om_keys polys).
rewrite hidx /=; last by move=> k hk; rewrite hz //= size_zval.
rewrite (@power_loopE F _ _ _ (fun c ki => c *: (Pq ki - Uq ki) * Dq ki)) /=; last first.
  move=> ki hki c; rewrite (idx_points kk ss hki) /= -[kzg_merged_points _]/merged diffE //= (idx_poly hki) /=.
  by rewrite (get_UE kk ss _ _ hz) -?surjective_pairing.
rewrite -[kzg_merged_points _]/merged; set theta := dtf _.
have hin (j : 'I_(size idxs)) : nth (0, 0)%N idxs j \in idxs by apply: mem_nth.
have -> : \sum_(j < size idxs) theta ^+ j *: (Pq (nth (0, 0)%N idxs j) - Uq (nth (0, 0)%N idxs j)) * Dq (nth (0, 0)%N idxs j)
    = (\sum_(j < size idxs) theta ^+ j *: Qq (nth (0, 0)%N idxs j)) * get_V merged.
  rewrite mulr_suml; apply: eq_bigr => j _; rewrite get_VE -(Dq_mul (hin j)) -QqK // -!scalerAl; congr (_ *: _).
  by rewrite -mulrA [zpoly _ * _]mulrC.
have Vn0 : get_V merged != 0 by rewrite get_VE zpoly_neq0.
rewrite modp_mull eqxx mulpK //.
set q := \sum_(j < _) _.
have sq : (size q <= d)%N.
  by apply: size_sumd => j; apply: leq_trans (size_scale_leq _ _) _; apply: size_Qq.
rewrite commit_withE //=; set tr2 := tr_absorb _ _ _; set theta2 := dtf _.
rewrite (@power_loopE F _ _ _ (fun c ki => (c * (Dq ki).[theta2]) *: (Pq ki - ((Uq ki).[theta2])%:P))) /=; last first.
  move=> ki hki c; rewrite (idx_points kk ss hki) /= diffE //= (idx_poly hki) /=.
  by rewrite (get_UE kk ss _ _ hz) -?surjective_pairing.
set L := _ - _ *: q.
have L0 : L.[theta2] = 0.
  rewrite /L hornerD hornerN hornerZ horner_sum /q horner_sum mulr_sumr -sumrB big1 // => j _.
  rewrite !hornerZ hornerD hornerN hornerC get_VE -(Dq_mul (hin j)) hornerM -/idxs.
  have := congr1 (fun p : {poly F} => p.[theta2]) (QqK (hin j)); rewrite hornerM hornerD hornerN => <-.
  exact: ring_id1.
rewrite L0 eqxx.
have sL : (size (L %/ ('X - theta2%:P))%R <= d)%N.
  apply: leq_trans (leq_divp _ _) _; apply: leq_trans (size_add _ _) _; rewrite size_opp geq_max.
  rewrite (leq_trans (size_scale_leq _ _)) // andbT; apply: size_sumd => j.
  apply: leq_trans (size_scale_leq _ _) _; apply: leq_trans (size_add _ _) _; rewrite size_opp geq_max hP //=.
  have [_ h] := hS (hin j); have hh := Upoly_size (Pq (nth (0, 0)%N idxs j)) (Sq (nth (0, 0)%N idxs j)).
  case: (posnP d) => [d0|]; last exact: leq_trans (size_polyC_leq1 _).
  move: h; rewrite d0 leqn0 => /eqP h; move: hh; rewrite h leqn0 size_poly_eq0 => /eqP hu.
  by rewrite /EvaluatorProofs.Uq hu horner0 size_poly0.
rewrite commit_withE //=; set pi2 := (L %/ _).[alpha] *: g1.
exists z', (q.[alpha] *: g1), pi2, (hash tr2); split=> //; clear hz'.
rewrite (@eq_in_ofold _ _ _ (upd (KzgScheme params2 (Evaluator z' polys l points) commitments))); last first.
  by move=> k _ c; apply: upd_same.
rewrite e1 /=.
have hidx' := @batch_indicesE (fun k => olet b <- om_get points k; oguard size b != 0%N; Some (size b)) (nP polys) (om_keys polys).
rewrite hidx' /=; last first.
  by move=> k hk; have [pts -> /= e2] := points_at kk ss hk; rewrite e2 hn.
rewrite (@power_loopE F _ _ _ (fun c ki => ((c * (Dq ki).[theta2]) *: ((Pq ki).[alpha] *: g1), c * (Dq ki).[theta2] * (Uq ki).[theta2]))) /=; last first.
  move=> ki hki c; have [batch -> [blob -> /= [-> /= es]]] := cAt hki.
  rewrite es /= -[kzg_merged_points _]/merged diffE //= (get_UE kk ss _ _ hz) -?surjective_pairing //.
rewrite -[kzg_merged_points _]/merged -/theta -/tr2 -/theta2.
have -> : \sum_(j < size idxs) ((theta ^+ j * (Dq (nth (0, 0)%N idxs j)).[theta2]) *: ((Pq (nth (0, 0)%N idxs j)).[alpha] *: g1),
     theta ^+ j * (Dq (nth (0, 0)%N idxs j)).[theta2] * (Uq (nth (0, 0)%N idxs j)).[theta2]) =
   ((\sum_(j < size idxs) theta ^+ j * (Dq (nth (0, 0)%N idxs j)).[theta2] * (Pq (nth (0, 0)%N idxs j)).[alpha]) *: g1,
    \sum_(j < size idxs) theta ^+ j * (Dq (nth (0, 0)%N idxs j)).[theta2] * (Uq (nth (0, 0)%N idxs j)).[theta2]) :> G1 * F.
  rewrite scaler_suml; elim/big_rec3: _ => [|j a b c _ ->] //=.
  by rewrite scalerA.
have eL : L.[alpha] = \sum_(j < size idxs) theta ^+ j * (Dq (nth (0, 0)%N idxs j)).[theta2] * (Pq (nth (0, 0)%N idxs j)).[alpha]
   - \sum_(j < size idxs) theta ^+ j * (Dq (nth (0, 0)%N idxs j)).[theta2] * (Uq (nth (0, 0)%N idxs j)).[theta2] - (get_V merged).[theta2] * q.[alpha].
  rewrite /L hornerD hornerN hornerZ horner_sum; congr (_ - _); rewrite -sumrB; apply: eq_bigr => j _.
  by rewrite hornerZ hornerD hornerN hornerC mulrBr.
rewrite /= /pi2 !scalerA -!scalerBl -scalerDl -eL /powers_of -/powers_of /=.
congr (Some (_, _)); apply/eqP; rewrite (ess _ _ be) (e_scalel be); congr (_ *: _).
by rewrite -(pi2_id L0) [theta2 * _]mulrC -mulrDr subrK.
Qed.
Lemma kzg_v2_complete z l pv lv tr : {in om_keys polys, forall k, nP polys k != 0%N} ->
  exists z' pi1 pi2 tr', kzg_v2_proof_eval hash dtf enc_g1 enc_f (KzgScheme params2 (Evaluator z polys l points) commitments) tr
     = Some ((z', pi1, pi2), tr_absorb hash tr' (enc_g1 pi2)) /\
   kzg_v2_verify_eval e g1 g2 hash dtf enc_g1 dec_g1 enc_f (KzgScheme params2 (Evaluator [::] pv lv points) [::]) (z', pi1, pi2) commitments tr
     = Some (true, tr').
Proof. by move=> hn; have [z' [pi1 [pi2 [tr' [h1 _ h2]]]]] := kzg_v2_honest z l [::] pv lv [::] tr hn; exists z', pi1, pi2, tr'. Qed.
End Scheme.
