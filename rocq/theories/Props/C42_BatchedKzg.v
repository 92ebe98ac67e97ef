(** C42: batched KZG completeness (both schemes used by Placeholder, and the static functions). *)
From mathcomp Require Import all_ssreflect all_algebra.
From Verif.Model Require Import Base Domain OrderedMap Transcript PolysEvaluator Kzg PlonkTable.
From Verif.Spec Require Import GroupSpec.
From Verif.Proofs Require Import NatTac DomainProofs PermProofs TableProofs KzgProofs EvaluatorProofs KzgBatchProofs.
Set Implicit Arguments.
Unset Strict Implicit.
Unset Printing Implicit Defensive.
Import GRing.Theory.
Local Open Scope ring_scope.

Local Arguments powers_of : simpl never.
Section C42.
Variables (F : fieldType) (G1 G2 GT : lmodType F) (e : G1 -> G2 -> GT) (g1 : G1) (g2 : G2).
(** the transcript's hash, the reading of challenges, and the encodings of group and field elements *)
Variables (B : Type) (hash : seq B -> seq B) (dtf : seq B -> F).
Variables (enc_g1 : G1 -> seq B) (dec_g1 : seq B -> option G1) (enc_f : F -> seq B).

(** Calls on the prover's commitment scheme object. *)
Inductive call :=
| Append (k : nat) (p : {poly F})
| AppendAll (k : nat) (ps : seq {poly F})
| Commit (k : nat)
| EvalPoints (k : nat) (xs : seq F)
| EvalPointsTo (k i : nat) (xs : seq F).

Definition on_ev (s : kzg_scheme G1 G2 B) (o : option (evaluator F)) : option (kzg_scheme G1 G2 B) :=
  omap (fun ev => KzgScheme (ks_params s) ev (ks_commitments s)) o.
Definition prover_call (s : kzg_scheme G1 G2 B) (c : call) : option (kzg_scheme G1 G2 B) :=
  match c with
  | Append k p => on_ev s (append_to_batch (ks_ev s) k p)
  | AppendAll k ps => on_ev s (append_all_to_batch (ks_ev s) k ps)
  | Commit k => omap snd (kzg_commit enc_g1 s k)
  | EvalPoints k xs => on_ev s (append_eval_points (ks_ev s) k xs)
  | EvalPointsTo k i xs => on_ev s (append_eval_points_to (ks_ev s) k i xs)
  end.
Definition prover_run params (h : seq call) := ofold prover_call (KzgScheme params (ev_empty F) [::]) h.

(** The verifier, instead of polynomials, is told their number when the prover commits; it is given the same points. *)
Definition bump (n : nat -> nat) (k m : nat) : nat -> nat := fun k' => if k' == k then (n k' + m)%N else n k'.
Definition verifier_call (st : (nat -> nat) * evaluator F) (c : call) : option ((nat -> nat) * evaluator F) :=
  let (n, ev) := st in
  match c with
  | Append k p => Some (bump n k 1, ev)
  | AppendAll k ps => Some (bump n k (size ps), ev)
  | Commit k => Some (n, set_batch_size ev k (n k))
  | EvalPoints k xs => omap (pair n) (append_eval_points ev k xs)
  | EvalPointsTo k i xs => omap (pair n) (append_eval_points_to ev k i xs)
  end.
Definition verifier_run params (h : seq call) : option (kzg_scheme G1 G2 B) :=
  omap (fun st : (nat -> nat) * evaluator F => KzgScheme params st.2 [::]) (ofold verifier_call (fun=> 0%N, ev_empty F) h).

(** Every batch with polynomials has been committed to. *)
Definition all_committed (s : kzg_scheme G1 G2 B) := {subset om_keys (ev_polys (ks_ev s)) <= om_keys (ks_commitments s)}.
(** The points of every polynomial are distinct and not more than the key's length. *)
Definition good_points d (s : kzg_scheme G1 G2 B) := forall k pts S, om_get (ev_points (ks_ev s)) k = Some pts -> S \in pts ->
  uniq S /\ (size S <= d)%N.

(** *** The invariant of histories *)
Section Invariant.
Variables (d t : nat) (alpha : F).
Notation params := (bkzg_setup g1 g2 d t alpha).
Definition locked (ev : evaluator F) k := odflt false (om_get (ev_locked ev) k).
Record inv (s : kzg_scheme G1 G2 B) (n : nat -> nat) (ev : evaluator F) : Prop := Inv {
  i_params : ks_params s = params;
  i_sp : sorted ltn (om_keys (ev_polys (ks_ev s)));
  i_st : sorted ltn (om_keys (ev_points (ks_ev s)));
  i_sc : sorted ltn (om_keys (ks_commitments s));
  i_pts : ev_points ev = ev_points (ks_ev s);
  i_lock : forall k, locked ev k = locked (ks_ev s) k;
  i_n : forall k, n k = size (odflt [::] (om_get (ev_polys (ks_ev s)) k));
  i_kt : forall k, (k \in om_keys (ev_points (ks_ev s))) = locked (ks_ev s) k;
  i_kc : forall k, (k \in om_keys (ks_commitments s)) = locked (ks_ev s) k;
  i_done : forall k, locked (ks_ev s) k -> [/\ k \in om_keys (ev_polys (ks_ev s)),
     size (odflt [::] (om_get (ev_points (ks_ev s)) k)) = n k,
     all (fun p : {poly F} => size p <= d)%N (odflt [::] (om_get (ev_polys (ks_ev s)) k)) &
     om_get (ks_commitments s) k = Some (flatten [seq enc_g1 (p.[alpha] *: g1) | p : {poly F} <- odflt [::] (om_get (ev_polys (ks_ev s)) k)])];
  i_z : ev_z (ks_ev s) = [::] /\ ev_z ev = [::] }.

Lemma inv_append s n ev k ps : inv s n ev -> ~~ locked (ks_ev s) k ->
  inv (KzgScheme (ks_params s) (Evaluator (ev_z (ks_ev s)) (om_set (ev_polys (ks_ev s)) k (odflt [::] (om_get (ev_polys (ks_ev s)) k) ++ ps))
    (om_set (ev_locked (ks_ev s)) k (locked (ks_ev s) k)) (ev_points (ks_ev s))) (ks_commitments s)) (bump n k (size ps)) ev.
Proof.
move=> [h1 h2 h3 h4 h5 h6 h7 h8 h9 h10 h11] hl.
have hlock k' : locked (Evaluator (ev_z (ks_ev s)) (om_set (ev_polys (ks_ev s)) k (odflt [::] (om_get (ev_polys (ks_ev s)) k) ++ ps))
    (om_set (ev_locked (ks_ev s)) k (locked (ks_ev s) k)) (ev_points (ks_ev s))) k' = locked (ks_ev s) k'.
  by rewrite {1}/locked /= om_get_set; case: eqP => [<-|//].
split=> //=; first exact: sorted_om_set.
- by move=> k'; rewrite h6 hlock.
- move=> k'; rewrite om_get_set /bump eq_sym; case: eqP => [->|_]; last exact: h7.
  by rewrite /= size_cat h7.
- by move=> k'; rewrite h8 hlock.
- by move=> k'; rewrite h9 hlock.
move=> k'; rewrite hlock => hk'; have nk : k != k' by apply: contraNneq hl => ->.
have [a1 a2 a3 a4] := h10 _ hk'.
by rewrite om_get_set (negPf nk) mem_om_set a1 orbT /bump eq_sym (negPf nk).
Qed.
Lemma inv_points s n ev k (pts : seq (seq F)) : inv s n ev -> locked (ks_ev s) k -> size pts = size (odflt [::] (om_get (ev_points (ks_ev s)) k)) ->
  inv (KzgScheme (ks_params s) (Evaluator (ev_z (ks_ev s)) (ev_polys (ks_ev s)) (ev_locked (ks_ev s)) (om_set (ev_points (ks_ev s)) k pts)) (ks_commitments s))
    n (Evaluator (ev_z ev) (ev_polys ev) (ev_locked ev) (om_set (ev_points ev) k pts)).
Proof.
move=> [h1 h2 h3 h4 h5 h6 h7 h8 h9 h10 h11] hl hs; split=> //=.
- exact: sorted_om_set.
- by rewrite h5.
- move=> k'; rewrite mem_om_set h8 /locked /=; case: eqP => //= ->.
  by symmetry; exact: hl.
move=> k' hk'; have [a1 a2 a3 a4] := h10 _ hk'; split=> //.
by rewrite om_get_set; case: eqP => [e1|//]; rewrite /= hs e1.
Qed.
Lemma omapM_commit ps cs : omapM (commit_with (powers_of alpha g1 d)) ps = Some cs ->
  all (fun p : {poly F} => size p <= d)%N ps /\ cs = [seq p.[alpha] *: g1 | p : {poly F} <- ps].
Proof.
elim: ps cs => [|p ps ih] cs /=; first by case=> <-.
case: (leqP (size p) d) => hp; last by rewrite /commit_with size_powers_of leqNgt hp.
by rewrite commit_withE //=; case ep : (omapM _ ps) => [cs'|] //= [<-]; have [-> ->] := ih _ ep.
Qed.
Lemma vresize_same (T : Type) (s : seq T) x : vresize s (size s) x = s.
Proof. by rewrite /vresize take_size subnn cats0. Qed.
Lemma inv_step c s n ev s' : inv s n ev -> prover_call s c = Some s' ->
  exists n' ev', verifier_call (n, ev) c = Some (n', ev') /\ inv s' n' ev'.
Proof.
move=> I; case: c => [k p|k ps|k|k xs|k i xs] /=.
- rewrite /append_to_batch /on_ev -/(locked (ks_ev s) k); case: ifP => //= hl [<-].
  by exists (bump n k 1), ev; split=> //; rewrite -cats1; exact: (inv_append [:: p] I hl).
- rewrite /append_all_to_batch /on_ev -/(locked (ks_ev s) k); case: ifP => //= hl [<-].
  by exists (bump n k (size ps)), ev; split=> //; apply: inv_append.
- rewrite /kzg_commit; case ecs : omapM => [cs|] //= [<-].
  exists n, (set_batch_size ev k (n k)); split=> //.
  case: I => h1 h2 h3 h4 h5 h6 h7 h8 h9 h10 h11.
  move: ecs; rewrite /= om_get_set eqxx /= h1 => /omapM_commit[hsz ecs].
  set ps := odflt [::] (om_get (ev_polys (ks_ev s)) k) in hsz ecs *.
  have eps : n k = size ps by rewrite h7.
  split; rewrite /= -?/ps //; try exact: sorted_om_set.
  + by rewrite h5 eps.
  + by move=> k'; rewrite /locked /= !om_get_set; case: eqP => // _; apply: h6.
  + by move=> k'; rewrite om_get_set h7; case: eqP => [<-|].
  + move=> k'; rewrite mem_om_set h8 /locked /= om_get_set eq_sym.
    by case: eqP.
  + move=> k'; rewrite mem_om_set h9 /locked /= om_get_set eq_sym.
    by case: eqP.
  + move=> k'; rewrite /locked /= !om_get_set mem_om_set eq_sym; case: eqP => [ek|nk] /= hl.
      split=> //; last by rewrite ecs -map_comp.
      by rewrite size_vresize ek.
    by have [a1 a2 a3 a4] := h10 _ hl.
- rewrite /append_eval_points /on_ev -!/(locked _ _); case: ifP => //= hl [<-].
  rewrite (i_lock I) hl /=; eexists; eexists; split; first by [].
  by have := inv_points I hl (size_map (fun ps => ps ++ xs) _); rewrite !(i_pts I).
- rewrite /append_eval_points_to /on_ev -!/(locked _ _); case: ifP => //= hl; rewrite (i_lock I) hl (i_pts I).
  case: (vget _ i) => //= ps; case ev2 : (vset _ i _) => [b|] //= [<-].
  eexists; eexists; split; first by [].
  have := inv_points I hl (size_vset ev2); rewrite (i_pts I); exact.
Qed.
Lemma inv_run h s : prover_run params h = Some s -> exists n ev, ofold verifier_call (fun=> 0%N, ev_empty F) h = Some (n, ev) /\ inv s n ev.
Proof.
rewrite /prover_run.
have : inv (KzgScheme params (ev_empty F) [::]) (fun=> 0%N) (ev_empty F) by split.
move: (KzgScheme params (ev_empty F) [::]) => s0; move: (fun=> 0%N : nat) => n; move: (ev_empty F) => ev.
elim: h s0 n ev => [|c h ih] s0 n ev I /=.
  by case=> <-; exists n, ev.
case ec : (prover_call s0 c) => [s1|] //= hr.
by have [n' [ev' [+ I']]] := inv_step I ec; rewrite /= => ->; apply: ih I' hr.
Qed.

Lemma inv_ready s n ev : inv s n ev -> all_committed s ->
  [/\ om_keys (ev_points (ks_ev s)) = om_keys (ev_polys (ks_ev s)), om_keys (ks_commitments s) = om_keys (ev_polys (ks_ev s)),
      forall k, size (odflt [::] (om_get (ev_points (ks_ev s)) k)) = nP (ev_polys (ks_ev s)) k,
      forall k ps, om_get (ev_polys (ks_ev s)) k = Some ps ->
        om_get (ks_commitments s) k = Some (flatten [seq enc_g1 (p.[alpha] *: g1) | p : {poly F} <- ps]) &
      forall ki, ki \in idxs (ev_polys (ks_ev s)) -> (size (Pq (ev_polys (ks_ev s)) ki) <= d)%N].
Proof.
move=> [h1 h2 h3 h4 h5 h6 h7 h8 h9 h10 h11] hall.
have hk k : (k \in om_keys (ev_polys (ks_ev s))) = locked (ks_ev s) k.
  by apply/idP/idP => [/hall|/h10[]//]; rewrite h9.
split.
- by apply: keys_eq => // k; rewrite h8 hk.
- by apply: keys_eq => // k; rewrite h9 hk.
- move=> k; case: (boolP (locked (ks_ev s) k)) => hl; first by have [_ -> _ _] := h10 _ hl; rewrite h7.
  by rewrite /nP om_get_noneP ?h8 // om_get_noneP ?hk.
- move=> k ps ek; have hl : locked (ks_ev s) k by rewrite -hk -om_get_mem ek.
  by have [_ _ _] := h10 _ hl; rewrite ek.
case=> k i; rewrite idxsP => /andP[]; rewrite hk => hl hi; have [_ _ /allP h _] := h10 _ hl.
by apply: h; rewrite /= mem_nth.
Qed.
Lemma good_Sq s n ev : inv s n ev -> all_committed s -> good_points d s -> forall ki, ki \in idxs (ev_polys (ks_ev s)) ->
  uniq (Sq (ev_points (ks_ev s)) ki) /\ (size (Sq (ev_points (ks_ev s)) ki) <= d)%N.
Proof.
move=> I /(inv_ready I)[k1 k2 k3 k4 k5] hg [k i]; rewrite idxsP => /andP[hk hi].
move: hk; rewrite -k1 => /om_get_someP[pts ep]; apply: (hg k pts) => //.
by rewrite /Sq /= ep mem_nth //; have := k3 k; rewrite ep /= => ->.
Qed.
End Invariant.

(** After any history of calls that violates no assertion, with every batch committed and distinct points per polynomial,
    the opening proof of the prover is computed and the verifier, who saw the same calls, accepts it, starting from the same
    transcript, and ends with the same transcript. *)
Theorem C42_v1 (lenB d t : nat) (alpha : F) (h : seq call) s tr :
  bilinear e -> (forall x, dec_g1 (enc_g1 x) = Some x) -> (forall x, size (enc_g1 x) = lenB) ->
  prover_run (bkzg_setup g1 g2 d t alpha) h = Some s -> all_committed s -> good_points d s ->
  (size (kzg_merged_points (ks_ev s)) <= t)%N ->
  exists proof tr' v,
   [/\ kzg_scheme_proof_eval hash dtf enc_f s tr = Some (proof, tr'),
       verifier_run (bkzg_setup g1 g2 d t alpha) h = Some v &
       kzg_scheme_verify_eval e hash dtf dec_g1 enc_f v proof (ks_commitments s) tr = Some (true, tr')].
Proof.
move=> be de es hr hall hg hT; have [n [ev [er I]]] := inv_run hr.
have [k1 k2 k3 k4 k5] := inv_ready I hall; have hS := good_Sq I hall hg.
have := kzg_v1_complete g2 be hash dtf enc_f de es (i_sp I) k1 k2 k3 k4 k5 hS hT.
move: (i_params I) (i_pts I) (i_z I).2; clear -er.
case: s => pr [z polys l points] cms /= -> ep ez H.
have [z' [pi [tr' [a1 a2]]]] := H z l (ev_polys ev) (ev_locked ev) tr.
exists (z', pi), tr', (KzgScheme (bkzg_setup g1 g2 d t alpha) ev [::]); split=> //; first by rewrite /verifier_run er.
by case: ev ep ez a2 {er H a1} => z2 p2 l2 pt2 /= -> ->.
Qed.

(** The same for version 2, whose keys have two elements in G2 whatever the number of points. Batches must not be empty.
    The prover absorbs its last message into the transcript, the verifier does not. *)
Theorem C42_v2 (lenB d : nat) (alpha : F) (h : seq call) s tr :
  bilinear e -> (forall x, dec_g1 (enc_g1 x) = Some x) -> (forall x, size (enc_g1 x) = lenB) ->
  prover_run (kzg_v2_create_params g1 g2 d alpha) h = Some s -> all_committed s -> good_points d s ->
  (forall k pts, om_get (ev_points (ks_ev s)) k = Some pts -> pts != [::]) ->
  exists proof tr' v,
   [/\ kzg_v2_proof_eval hash dtf enc_g1 enc_f s tr = Some (proof, tr_absorb hash tr' (enc_g1 proof.2)),
       verifier_run (kzg_v2_create_params g1 g2 d alpha) h = Some v &
       kzg_v2_verify_eval e g1 g2 hash dtf enc_g1 dec_g1 enc_f v proof (ks_commitments s) tr = Some (true, tr')].
Proof.
move=> be de es hr hall hg hn; have [n [ev [er I]]] := inv_run hr.
have [k1 k2 k3 k4 k5] := inv_ready I hall; have hS := good_Sq I hall hg.
have hn' : {in om_keys (ev_polys (ks_ev s)), forall k, nP (ev_polys (ks_ev s)) k != 0%N}.
  move=> k; rewrite -k1 -k3 => /om_get_someP[pts ep]; rewrite ep /= size_eq0; exact: hn ep.
have := kzg_v2_complete g2 be hash dtf enc_f de es (i_sp I) k1 k2 k3 k4 k5 hS.
move: (i_params I) (i_pts I) (i_z I).2 hn'; clear -er.
case: s => pr [z polys l points] cms /= -> ep ez hn' H.
have [z' [pi1 [pi2 [tr' [a1 a2]]]]] := H z l (ev_polys ev) (ev_locked ev) tr hn'.
exists (z', pi1, pi2), tr', (KzgScheme (kzg_v2_create_params g1 g2 d alpha) ev [::]); split=> //; first by rewrite /verifier_run er.
by case: ev ep ez a2 {er H a1} => z2 p2 l2 pt2 /= -> ->.
Qed.

Lemma single_T (S : seq (seq F)) : size S = 1%N -> set_difference (merge_points S) (nth [::] S 0) = [::].
Proof.
case: S => [|S0 [|]] //= _; rewrite /set_difference (@eq_in_filter _ _ xpred0) ?filter_pred0 // => x.
by rewrite mem_undup /= cats0 => ->.
Qed.
Lemma merge_ne (S : seq (seq F)) : nth [::] S 0 != [::] -> merge_points S != [::].
Proof.
case: S => [|[|x l] S] //= _; apply/eqP => e0.
by have : x \in merge_points ((x :: l) :: S) by [rewrite mem_undup /= mem_head]; rewrite e0.
Qed.
Lemma reidx (V : zmodType) (f g : nat -> V) n : (forall j, (j < n)%N -> f j = g j) ->
  \sum_(j < size [seq (0%N, i) | i <- iota 0 n]) f j = \sum_(j < n) g j.
Proof. by move=> h; rewrite size_map size_iota; apply: eq_bigr => j _; apply: h. Qed.
(** The static functions [algorithms::proof_eval] / [verify_eval] on one list of polynomials with non-empty lists of distinct
    points. *)
Theorem C42_static d t alpha (polys : seq {poly F}) (S : seq (seq F)) tr : bilinear e ->
  size polys = size S -> polys != [::] -> all (fun p : {poly F} => size p <= d)%N polys ->
  all (fun s : seq F => uniq s && (s != [::]) && (size s <= d)%N) S -> (size (merge_points S) <= t)%N ->
  let params := bkzg_setup g1 g2 d t alpha in
  exists cs rs pi tr',
    [/\ omapM (commit_with (bk_commitment_key params)) polys = Some cs, create_evals_polys polys S = Some rs,
        bkzg_proof_eval hash dtf enc_g1 enc_f params polys (BkzgPublicKey cs (merge_points S) S rs) tr = Some (pi, tr') &
        bkzg_verify_eval e g2 hash dtf enc_g1 enc_f params pi (BkzgPublicKey cs (merge_points S) S rs) tr = Some (true, tr')].
Proof.
move=> be hs hne hP hS hT params.
have hPi i : (i < size polys)%N -> (size (nth (0 : {poly F})%R polys i) <= d)%N by move=> hi; apply: (allP hP); apply: mem_nth.
have hSi i : (i < size polys)%N -> [/\ uniq (nth [::] S i), nth [::] S i != [::] & (size (nth [::] S i) <= d)%N].
  by rewrite hs => hi; have /andP[/andP[]] := allP hS _ (mem_nth [::] hi).
pose U i := Upoly (nth 0 polys i) (nth [::] S i).
set T := merge_points S.
have hsub i : (i < size polys)%N -> {subset nth [::] S i <= T}.
  by rewrite hs => hi x hx; rewrite mem_undup; apply/flattenP; exists (nth [::] S i) => //; apply: mem_nth.
pose D i := zpoly (set_difference T (nth [::] S i)).
have hD i : (i < size polys)%N -> D i * zpoly (nth [::] S i) = zpoly T.
  by move=> hi; have [u _ _] := hSi i hi; apply: zpoly_diff; rewrite ?undup_uniq //; apply: hsub.
have hDE i : (i < size polys)%N -> set_difference_polynom T (nth [::] S i) = Some (D i).
  move=> hi; rewrite /set_difference_polynom /D; case: (set_difference _ _) => [|x r] /=; first by rewrite /zpoly big_nil.
  by rewrite -create_polynomE.
have sD i : (size (D i) <= t.+1)%N by rewrite /D size_zpoly ltnS (leq_trans _ hT) // size_filter count_size.
have sU i : (i < size polys)%N -> (size (U i) <= d)%N.
  by move=> hi; have [_ _ h] := hSi i hi; apply: leq_trans (Upoly_size _ _) h.
pose Q i := (nth 0 polys i - U i) %/ zpoly (nth [::] S i).
have hQ i : (i < size polys)%N -> Q i * zpoly (nth [::] S i) = nth 0 polys i - U i.
  by move=> hi; have [u _ _] := hSi i hi; rewrite divpK // Upoly_dvd.
pose cs := [seq p.[alpha] *: g1 | p : {poly F} <- polys].
pose rs := [seq U i | i <- iota 0 (size polys)].
have ecs : omapM (commit_with (bk_commitment_key params)) polys = Some cs.
  by apply: omapM_some => p hp; rewrite commit_withE //; apply: (allP hP).
have ers : create_evals_polys polys S = Some rs.
  rewrite /create_evals_polys hs eqxx; congr Some; apply: (@eq_from_nth _ 0).
    by rewrite !size_map size_zip size_iota hs minnn.
  rewrite size_map size_zip hs minnn => i hi.
  rewrite (nth_map (0, [::])) ?size_zip ?hs ?minnn // nth_zip //= /rs (nth_map 0%N) ?size_iota ?hs // nth_iota ?hs // add0n.
  by rewrite /U /Upoly; congr lagrange_interpolation; elim: (nth [::] S i) => //= x l ->.
have hnth (j : nat) : (j < size polys)%N -> nth (0, 0)%N [seq (0%N, i) | i <- iota 0 (size polys)] j = (0%N, j).
  by move=> hj; rewrite (nth_map 0%N) ?size_iota // nth_iota.
have grs i : (i < size polys)%N -> vget rs i = Some (U i).
  by move=> hi; rewrite (vget_nth 0) ?size_map ?size_iota // (nth_map 0%N) ?size_iota // nth_iota.
have gS i : (i < size polys)%N -> vget S i = Some (nth [::] S i) by move=> hi; rewrite (vget_nth [::]) // -hs.
have mem_idx ki : ki \in [seq (0%N, i) | i <- iota 0 (size polys)] -> (ki.2 < size polys)%N.
  by case/mapP => i; rewrite mem_iota => /andP[_ hi] ->.
exists cs, rs.
set pk := BkzgPublicKey _ _ _ _; set tr1 := bkzg_update_transcript hash enc_g1 enc_f pk tr.
pose acc := \sum_(j < size polys) (dtf (hash tr1)) ^+ j *: Q j.
exists (acc.[alpha] *: g1), (hash tr1); split=> //.
  rewrite /bkzg_proof_eval /= -/tr1.
  rewrite (@power_loopE F _ _ _ (fun c ki => c *: Q ki.2)) /=; last first.
    move=> ki /mem_idx hi c; rewrite (vget_nth 0) //= grs // gS //=; have [u ne _] := hSi _ hi.
    rewrite create_polynomE //= -/(Q ki.2) ifT; last first.
      by apply/allP => x hx; rewrite hornerD hornerN Upoly_at // subrr.
    by rewrite -/(U ki.2) (eqP (_ : zpoly _ %| _)) ?eqxx //; apply: Upoly_dvd.
  have e1 : \sum_(j < size [seq (0%N, i) | i <- iota 0 (size polys)]) dtf (hash tr1) ^+ j *: Q (nth (0, 0)%N [seq (0%N, i) | i <- iota 0 (size polys)] j).2 = acc.
    apply: (@reidx _ (fun j => dtf (hash tr1) ^+ j *: Q (nth (0, 0)%N [seq (0%N, i) | i <- iota 0 (size polys)] j).2) (fun j => dtf (hash tr1) ^+ j *: Q j)) => j hj.
    by rewrite hnth.
  rewrite e1 commit_withE //; apply: size_sumd => j; apply: leq_trans (size_scale_leq _ _) _.
  by apply: size_quot; [exact: hPi | have [] := hSi _ (ltn_ord j)].
rewrite /bkzg_verify_eval /= -/tr1 size_map.
rewrite (@power_loopE F _ _ _ (fun c ki => e (c *: ((nth 0 polys ki.2).[alpha] *: g1 - (U ki.2).[alpha] *: g1)) ((D ki.2).[alpha] *: g2))) /=; last first.
  move=> ki /mem_idx hi c; rewrite (vget_nth 0) ?size_map //= (nth_map 0) // grs // gS //= commit_withE ?sU //=.
  rewrite hDE //= commit_withE //=; case: eqP => //= h1.
  move: hi; rewrite h1 ltnS leqn0 => /eqP e0; rewrite e0.
  suff -> : D 0%N = 1 by rewrite hornerC scale1r eqxx.
  by rewrite /D single_T -?hs // /zpoly big_nil.
rewrite create_polynomE /=; last first.
  by apply: merge_ne; case: (hSi 0%N _) => //; case: (polys) hne.
rewrite commit_withE /=; last by rewrite size_zpoly ltnS.
congr (Some (_, _)); apply/eqP.
rewrite /acc horner_sum scaler_suml (e_suml be).
pose f ki c := e (c *: ((nth 0 polys ki).[alpha] *: g1 - (U ki).[alpha] *: g1)) ((D ki).[alpha] *: g2).
apply: (@reidx _ (fun j => f (nth (0, 0)%N [seq (0%N, i) | i <- iota 0 (size polys)] j).2 (dtf (hash tr1) ^+ j)) (fun j => e ((dtf (hash tr1) ^+ j *: Q j).[alpha] *: g1) ((zpoly T).[alpha] *: g2))) => j hj.
rewrite /f hnth //= -scalerBl scalerA !(ess _ _ be) hornerZ -!mulrA.
congr (_ *: _); congr (_ * _).
rewrite -(hD j hj) hornerM mulrCA -hornerM hQ //.
by rewrite !hornerE mulrC.
Qed.
End C42.

(** Finding: committing a batch without polynomials is accepted by the prover of version 2, but the verifier divides by zero. *)
Theorem C42_v2_empty_batch_refuted (F : fieldType) (G1 G2 GT : lmodType F) (e : G1 -> G2 -> GT) g1 g2
    (B : Type) (hash : seq B -> seq B) dtf (enc_g1 : G1 -> seq B) dec_g1 enc_f d alpha tr :
  exists s v proof tr',
   [/\ prover_run enc_g1 (kzg_v2_create_params g1 g2 d alpha) [:: Commit F 0] = Some s,
       kzg_v2_proof_eval hash dtf enc_g1 enc_f s tr = Some (proof, tr'),
       verifier_run B (kzg_v2_create_params g1 g2 d alpha) [:: Commit F 0] = Some v &
       kzg_v2_verify_eval e g1 g2 hash dtf enc_g1 dec_g1 enc_f v proof (ks_commitments s) tr = None].
Proof.
have hc : commit_with (powers_of alpha g1 d) (0 : {poly F}) = Some (0 *: g1).
  by rewrite commit_withE ?horner0 // size_poly0.
set params := kzg_v2_create_params _ _ _ _.
exists (KzgScheme params (Evaluator [::] [:: (0%N, [::])] [:: (0%N, true)] [:: (0%N, [::])]) [:: (0%N, [::])]).
exists (KzgScheme params (Evaluator [::] [::] [:: (0%N, true)] [:: (0%N, [::])]) [::]).
exists ([:: (0%N, [::])], 0 *: g1, 0 *: g1); eexists; split=> //.
rewrite /kzg_v2_proof_eval /= mod0p eqxx div0p hc /= scaler0 subr0 horner0 eqxx div0p hc.
by [].
Qed.

(** Two batches of polynomials of degree at most 2 over F_17, key of length 3, trapdoor 5. *)
Example C42_witness : let F := [fieldType of 'F_17] in
  let e : F^o -> F^o -> F^o := fun x y => x * y in
  let enc : F^o -> seq F := fun x => [:: x] in
  let dec : seq F -> option F^o := ohead in
  let p : {poly F} := Poly [:: 1; 0; 1] in let q : {poly F} := Poly [:: 3; 2] in
  let h := [:: Append 4 q; Commit F 4; AppendAll 1 [:: p; q]; Append 1 p; EvalPoints 4 [:: (2 : F); 3]; Commit F 1;
               EvalPoints 1 [:: (6 : F)]; EvalPointsTo 1 2 [:: (2 : F)]] in
  bilinear e /\ (forall x, dec (enc x) = Some x) /\ (forall x, size (enc x) = 1%N) /\
  exists s, [/\ prover_run enc (bkzg_setup (1 : F^o) (1 : F^o) 3 5 (5 : F)) h = Some s, all_committed s, good_points 3 s,
    (size (kzg_merged_points (ks_ev s)) <= 5)%N & forall k pts, om_get (ev_points (ks_ev s)) k = Some pts -> pts != [::]].
Proof.
move=> F e enc dec p q h; split; last split=> //; last split=> //.
  split=> [x x' y|x y y'|c x y|c x y]; rewrite /e.
  - exact: mulrDl.
  - exact: mulrDr.
  - exact: esym (mulrA (c : F) x y).
  - exact: mulrCA (x : F) c y.
have hp : (size p <= 3)%N by exact: size_Poly.
have hq : (size q <= 3)%N by apply: leq_trans (size_Poly _) _.
rewrite /prover_run /h /= /kzg_commit /= commit_withE //= !commit_withE //=.
eexists; split; first by [].
- by move=> k /=.
- move=> k pts S /=; case: eqP => _; last case: eqP => _ //; case=> <-.
    by rewrite !inE => /or3P[] /eqP ->; split; vm_decide.
  by rewrite !inE => /eqP ->; split; vm_decide.
- by vm_decide.
by move=> k pts /=; case: eqP => _; last case: eqP => _ //; case=> <-.
Qed.

Print Assumptions C42_v1.
Print Assumptions C42_v2.
Print Assumptions C42_static.
Print Assumptions C42_v2_empty_batch_refuted.
Print Assumptions C42_witness.
