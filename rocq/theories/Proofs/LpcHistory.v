(** The states that histories of calls on the list polynomial commitment reach. *)
From mathcomp Require Import all_ssreflect all_algebra.
From Verif.Model Require Import Base OrderedMap PlonkTable Domain Quotient PolysEvaluator Fri Lpc.
From Verif.Spec Require Import FriSpec LpcSpec.
From Verif.Proofs Require Import NatTac PermProofs TableProofs KzgProofs PackingProofs DomainProofs QuotientProofs EvaluatorProofs PlaceholderRun PlaceholderState.
Set Implicit Arguments.
Unset Strict Implicit.
Unset Printing Implicit Defensive.
Import GRing.Theory.
Local Open Scope ring_scope.

Section History.
Variable F : fieldType.
Variables (Dg : eqType) (hash_leaf : seq F -> Dg) (hash_node : Dg -> Dg -> Dg).
Variables (T : Type) (challenge : T -> F * T) (unity_root : nat -> F).
Variables (R : poly_type) (P : fri_params F) (D0 : seq F) (step : nat).
Hypothesis hD : vget (fp_D P) 0 = Some D0.
Hypothesis hstep : vget (fp_step_list P) 0 = Some step.
Notation prover_call := (LpcSpec.prover_call hash_leaf hash_node challenge unity_root R P).
Notation verifier_call := (LpcSpec.verifier_call challenge).
Notation both_run := (LpcSpec.both_run hash_leaf hash_node challenge unity_root R P).
Notation prover_run := (LpcSpec.prover_run hash_leaf hash_node challenge unity_root R P).
Notation lpc := (lpc_scheme F).

Definition locked (ev : evaluator F) k := odflt false (om_get (ev_locked ev) k).
Notation polys s := (ev_polys (ls_ev s)).
Notation points s := (ev_points (ls_ev s)).
Notation batch s k := (odflt [::] (om_get (polys s) k)).
Record inv (s v : lpc) : Prop := Inv {
  i_sp : sorted ltn (om_keys (polys s));
  i_st : sorted ltn (om_keys (points s));
  i_sc : sorted ltn (om_keys (ls_trees s));
  i_pts : points v = points s;
  i_lock : forall k, locked (ls_ev v) k = locked (ls_ev s) k;
  i_kt : forall k, (k \in om_keys (points s)) = locked (ls_ev s) k;
  i_kc : forall k, (k \in om_keys (ls_trees s)) = locked (ls_ev s) k;
  i_done : forall k, locked (ls_ev s) k -> [/\ k \in om_keys (polys s),
     size (odflt [::] (om_get (points s) k)) = size (batch s k) &
     exists fs t, [/\ stored_batch unity_root R k (batch s k) = Some fs, precommit_batch unity_root fs D0 step = Some t & om_get (ls_trees s) k = Some t]];
  i_z : ev_z (ls_ev s) = [::];
  i_fixed : [/\ sorted ltn (om_keys (ls_fixed s)), ls_fixed v = ls_fixed s, ls_etha v = ls_etha s & ls_fixed_values v = ls_fixed_values s] }.

Lemma inv_append s v k ps : inv s v -> ~~ locked (ls_ev s) k ->
  inv (LpcScheme (Evaluator (ev_z (ls_ev s)) (om_set (polys s) k (batch s k ++ ps))
    (om_set (ev_locked (ls_ev s)) k (locked (ls_ev s) k)) (points s)) (ls_trees s) (ls_etha s) (ls_fixed s) (ls_fixed_values s)) v.
Proof.
move=> [h2 h3 h4 h5 h6 h8 h9 h10 h11 h12] hl.
have hlock k' : locked (Evaluator (ev_z (ls_ev s)) (om_set (polys s) k (batch s k ++ ps))
    (om_set (ev_locked (ls_ev s)) k (locked (ls_ev s) k)) (points s)) k' = locked (ls_ev s) k'.
  by rewrite {1}/locked /= om_get_set; case: eqP => [<-|//].
split=> //=; first exact: sorted_om_set.
- by move=> k'; rewrite h6 hlock.
- by move=> k'; rewrite h8 hlock.
- by move=> k'; rewrite h9 hlock.
move=> k'; rewrite hlock => hk'; have nk : k != k' by apply: contraNneq hl => ->.
have [a1 a2 a3] := h10 _ hk'.
by rewrite om_get_set (negPf nk) mem_om_set a1 orbT.
Qed.
Lemma inv_points s v k (pts : seq (seq F)) : inv s v -> locked (ls_ev s) k -> size pts = size (odflt [::] (om_get (points s) k)) ->
  inv (LpcScheme (Evaluator (ev_z (ls_ev s)) (polys s) (ev_locked (ls_ev s)) (om_set (points s) k pts)) (ls_trees s) (ls_etha s) (ls_fixed s) (ls_fixed_values s))
    (LpcScheme (Evaluator (ev_z (ls_ev v)) (polys v) (ev_locked (ls_ev v)) (om_set (points v) k pts)) (ls_trees v) (ls_etha v) (ls_fixed v) (ls_fixed_values v)).
Proof.
move=> [h2 h3 h4 h5 h6 h8 h9 h10 h11 h12] hl hs; split=> //=.
- exact: sorted_om_set.
- by rewrite h5.
- move=> k'; rewrite mem_om_set h8 /locked /=; case: eqP => //= ->.
  by symmetry; exact: hl.
move=> k' hk'; have [a1 a2 a3] := h10 _ hk'; split=> //.
by rewrite om_get_set; case: eqP => [e1|//]; rewrite /= hs e1.
Qed.
Lemma inv_step c s v s' : inv s v -> prover_call s c = Some s' -> exists2 v', verifier_call s v c = Some v' & inv s' v'.
Proof.
move=> I; case: c => [k p|k ps|k|k xs|k i xs|k|tr] /=.
- rewrite /append_to_batch /with_ev -/(locked (ls_ev s) k); case: ifP => //= hl [<-].
  by exists v => //; rewrite -cats1; exact: (inv_append [:: p] I hl).
- rewrite /append_all_to_batch /with_ev -/(locked (ls_ev s) k); case: ifP => //= hl [<-].
  by exists v => //; apply: inv_append.
- rewrite /lpc_commit hD hstep; case efs : stored_batch => [fs|] //=; case et : precommit_batch => [t|] //= [<-].
  eexists; first by [].
  case: I => h2 h3 h4 h5 h6 h8 h9 h10 h11 h12.
  move: efs; rewrite /= om_get_set eqxx /= => efs.
  set ps := odflt [::] (om_get (polys s) k) in efs *.
  split; rewrite /= -?/ps //; try exact: sorted_om_set.
  + by rewrite h5.
  + by move=> k'; rewrite /locked /= !om_get_set; case: eqP => // _; apply: h6.
  + move=> k'; rewrite mem_om_set h8 /locked /= om_get_set eq_sym.
    by case: eqP.
  + move=> k'; rewrite mem_om_set h9 /locked /= om_get_set eq_sym.
    by case: eqP.
  + move=> k'; rewrite /locked /= !om_get_set mem_om_set eq_sym; case: eqP => [ek|nk] /= hl.
      split=> //; first by rewrite size_vresize.
      by exists fs, t; rewrite ek.
    by have [a1 a2 a3] := h10 _ hl.
- rewrite /append_eval_points /with_ev -!/(locked _ _); case: ifP => //= hl [<-].
  rewrite (i_lock I) hl /=; eexists; first by [].
  by have := inv_points I hl (size_map (fun ps => ps ++ xs) _); rewrite !(i_pts I).
- rewrite /append_eval_points_to /with_ev -!/(locked _ _); case: ifP => //= hl; rewrite (i_lock I) hl (i_pts I).
  case: (vget _ i) => //= ps; case ev2 : (vset _ i _) => [b|] //= [<-].
  eexists; first by [].
  have := inv_points I hl (size_vset ev2); rewrite (i_pts I); exact.
- case=> <-; eexists; first by []; case: I => h2 h3 h4 h5 h6 h8 h9 h10 h11 [f1 f2 f3 f4]; split=> //=; split=> //; first exact: sorted_om_set.
  by rewrite f2.
case ed : lpc_preprocess => [[d tr']|] //= [<-]; eexists; first by [].
rewrite /lpc_setup; case: (challenge tr) => etha tr2 /=; case: I => h2 h3 h4 h5 h6 h8 h9 h10 h11 [f1 f2 f3 f4]; by split.
Qed.

(** Marked batches are committed; after the setup the preprocessed values are the values at the point. *)
Definition fixed_locked (s : lpc) := forall k, is_fixed s k -> locked (ls_ev s) k.
Definition fixed_values (s : lpc) := forall k, is_fixed s k -> om_get (ls_fixed_values s) k = Some [seq p.[ls_etha s] | p : {poly F} <- batch s k].
Definition marks_committed (h : seq (call F T)) := forall h1 k h2, h = h1 ++ MarkFixed _ _ k :: h2 -> List.In (Commit _ _ k) h1.
Definition setup_after (h : seq (call F T)) := forall h1 k h2, h = h1 ++ MarkFixed F T k :: h2 -> exists tr, List.In (Setup F tr) h2.

Lemma ofold_rcons' (A B : Type) (f : B -> A -> option B) b s a : ofold f b (rcons s a) = olet b' <- ofold f b s; f b' a.
Proof. by elim: s b => [|x s ih] b //=; [case: (f b a)|case: (f b x)]. Qed.
Lemma both_inv h s : prover_run h = Some s -> exists2 v, both_run h = Some (s, v) & inv s v.
Proof.
rewrite /LpcSpec.prover_run /LpcSpec.both_run; have : inv (lpc_init F) (lpc_init F) by split.
elim/last_ind: h s => [|h c ih] s I0 /=; first by case=> <-; exists (lpc_init F).
rewrite !ofold_rcons'; case E : (ofold prover_call _ h) => [s1|] //= hc; have [v1 -> I] := ih _ I0 E.
have [v2 h2 I2] := inv_step I hc; by rewrite /= hc /= h2; exists v2.
Qed.
Lemma locked_step c s s' k : prover_call s c = Some s' -> locked (ls_ev s) k -> locked (ls_ev s') k.
Proof.
case: c => [k' p|k' ps|k'|k' xs|k' i xs|k'|tr] /=.
- rewrite /append_to_batch /with_ev -/(locked (ls_ev s) k'); case: ifP => //= hl [<-].
  by rewrite /locked /= om_get_set; case: eqP => // <-.
- rewrite /append_all_to_batch /with_ev -/(locked (ls_ev s) k'); case: ifP => //= hl [<-].
  by rewrite /locked /= om_get_set; case: eqP => // <-.
- rewrite /lpc_commit hD hstep; case: stored_batch => [fs|] //=; case: precommit_batch => [t|] //= [<-].
  by rewrite /locked /= om_get_set; case: eqP.
- by rewrite /append_eval_points /with_ev; case: ifP => //= hl [<-].
- by rewrite /append_eval_points_to /with_ev; case: ifP => //= hl; case: (vget _ i) => //= ps; case: (vset _ i _) => [b|] //= [<-].
- by case=> <-.
by case: lpc_preprocess => [[d tr']|] //= [<-]; rewrite /lpc_setup; case: challenge.
Qed.
Lemma run_locked h s k : prover_run h = Some s -> List.In (Commit _ _ k) h -> locked (ls_ev s) k.
Proof.
rewrite /LpcSpec.prover_run; elim/last_ind: h s => [|h c ih] s //=.
rewrite ofold_rcons'; case E : (ofold prover_call _ h) => [s1|] //= hc /In_rcons[hin|e].
  exact: locked_step hc (ih _ E hin).
subst c; move: hc; rewrite /= /lpc_commit hD hstep; case: stored_batch => [fs|] //=; case: precommit_batch => [t|] //= [<-].
by rewrite /locked /= om_get_set eqxx.
Qed.
Lemma rcons_split (A : Type) (h h1 h2 : seq A) c x : h = h1 ++ x :: h2 -> rcons h c = h1 ++ x :: rcons h2 c.
Proof. by move=> ->; rewrite rcons_cat. Qed.
Lemma run_fixed_locked h s : prover_run h = Some s -> marks_committed h -> fixed_locked s.
Proof.
elim/last_ind: h s => [|h c ih] s; first by case=> <-.
move=> hr hm k; move: (hr); rewrite /LpcSpec.prover_run ofold_rcons'; case E : (ofold prover_call _ h) => [s1|] //= hc.
have hm1 : marks_committed h by move=> h1 k' h2 e; apply: hm (rcons_split c e).
have ih1 := ih _ E hm1.
have other : is_fixed s1 k -> locked (ls_ev s) k by move/ih1; apply: locked_step hc.
have same : ls_fixed s = ls_fixed s1 -> is_fixed s k -> locked (ls_ev s) k by move=> e; rewrite /is_fixed e; exact: other.
case: c hr hm hc other same => [k' p|k' ps|k'|k' xs|k' i xs|k'|tr] hr hm /= hc other same.
- by apply: same; move: hc; rewrite /append_to_batch /with_ev; case: ifP => //= hl [<-].
- by apply: same; move: hc; rewrite /append_all_to_batch /with_ev; case: ifP => //= hl [<-].
- by apply: same; move: hc; rewrite /lpc_commit hD hstep; case: stored_batch => [fs|] //=; case: precommit_batch => [t|] //= [<-].
- by apply: same; move: hc; rewrite /append_eval_points /with_ev; case: ifP => //= hl [<-].
- by apply: same; move: hc; rewrite /append_eval_points_to /with_ev; case: ifP => //= hl; case: (vget _ i) => //= ps; case: (vset _ i _) => [b|] //= [<-].
- have := hm h k' [::]; rewrite -cats1 => /(_ erefl) hin.
  case: hc other hr => <- other hr; rewrite /is_fixed /= om_get_set; case: eqP => [<- _|_ hf]; last exact: other.
  exact: run_locked E hin.
apply: same; move: hc; case: lpc_preprocess => [[d tr']|] //= [<-]; by rewrite /lpc_setup; case: challenge.
Qed.
Lemma om_get_omapM (A B : Type) (m : omapT A) (sel : A -> bool) (f : nat -> option B) r :
  omapM (fun e : nat * A => omap (pair e.1) (f e.1)) [seq e <- m | sel e.2] = Some r -> sorted ltn (om_keys m) ->
  forall k a, om_get m k = Some a -> sel a -> om_get r k = f k /\ isSome (f k).
Proof.
elim: m r => [|[k1 a1] m ih] r //= hr hs k a.
have hs' : sorted ltn (om_keys m) by apply: path_sorted hs.
case: eqP => [e1 [e2] hsel|hne hg hsel].
  move: hr; subst; rewrite hsel /=; case E: (f k) => [b|] //=; case: (omapM _ _) => //= r' [<-] /=; by rewrite eqxx.
move: hr; case: (sel a1) => /= hr; last exact: ih hr hs' _ _ hg hsel.
move: hr; case E: (f k1) => [b|] //=; case E2: (omapM _ _) => [r'|] //= [<-] /=.
case: eqP => // _; exact: ih E2 hs' _ _ hg hsel.
Qed.
Lemma run_fixed_values h s : prover_run h = Some s -> marks_committed h -> setup_after h -> fixed_values s.
Proof.
elim/last_ind: h s => [|h c ih] s; first by case=> <-.
move=> hr hm hs; move: (hr); rewrite /LpcSpec.prover_run ofold_rcons'; case E : (ofold prover_call _ h) => [s1|] //= hc.
have hm1 : marks_committed h by move=> h1 k' h2 e; apply: hm (rcons_split c e).
have hlk := run_fixed_locked E hm1.
case isS : (if c is Setup _ then true else false).
  case: c isS hs hr hm hc => // tr _ hs hr hm /=; case ed : (lpc_preprocess challenge s1 tr) => [[d tr']|] //= [<-].
  have [v _ I] := both_inv E; case: (i_fixed I) => sf _ _ _.
  move: ed; rewrite /lpc_preprocess /lpc_setup; case: (challenge tr) => etha tr2.
  case ed: (omapM _ _) => [d'|] //= [<- _] k /=; rewrite /is_fixed /=.
  case eg: (om_get (ls_fixed s1) k) => [[]|] //= _.
  have ed' : omapM (fun e : nat * bool => omap (pair e.1) (omap (fun ps => [seq p.[etha] | p : {poly F} <- ps]) (om_get (polys s1) e.1))) [seq e <- ls_fixed s1 | e.2] = Some d'.
    by rewrite -ed; apply: eq_omapM => e /=; case: (om_get _ _).
  have [-> ] := om_get_omapM (sel := id) (f := fun k => omap (fun ps => [seq p.[etha] | p : {poly F} <- ps]) (om_get (polys s1) k)) ed' sf eg isT.
  by case: (om_get (polys s1) k).
have hs1 : setup_after h.
  move=> h1 k h2 e; have [tr /In_rcons[hin|ec]] := hs _ _ _ (rcons_split c e); first by exists tr.
  by rewrite -ec in isS.
have := ih _ E hm1 hs1 => fv k.
have keep : ls_fixed s = ls_fixed s1 -> ls_etha s = ls_etha s1 -> ls_fixed_values s = ls_fixed_values s1 ->
    (locked (ls_ev s1) k -> batch s k = batch s1 k) -> is_fixed s k ->
    om_get (ls_fixed_values s) k = Some [seq p.[ls_etha s] | p : {poly F} <- batch s k].
  by move=> e1 e2 e3 e4; rewrite /is_fixed e1 => hf; rewrite e3 e2 e4 ?fv //; apply: hlk.
case: c isS hr hm hs hc keep => [k' p|k' ps|k'|k' xs|k' i xs|k'|tr] // _ hr hm hs /= hc keep.
- move: hc keep; rewrite /append_to_batch /with_ev -/(locked (ls_ev s1) k'); case: ifP => //= hl [<-] keep; apply: keep => //= hk.
  by rewrite om_get_set; case: eqP => // e; rewrite e hk in hl.
- move: hc keep; rewrite /append_all_to_batch /with_ev -/(locked (ls_ev s1) k'); case: ifP => //= hl [<-] keep; apply: keep => //= hk.
  by rewrite om_get_set; case: eqP => // e; rewrite e hk in hl.
- move: hc keep; rewrite /lpc_commit hD hstep; case: stored_batch => [fs|] //=; case: precommit_batch => [t|] //= [<-] keep; apply: keep => //= hk.
  by rewrite om_get_set; case: eqP => // ->.
- by move: hc keep; rewrite /append_eval_points /with_ev; case: ifP => //= hl [<-] keep; apply: keep.
- by move: hc keep; rewrite /append_eval_points_to /with_ev; case: ifP => //= hl; case: (vget _ i) => //= ps; case: (vset _ i _) => [b|] //= [<-] keep; apply: keep.
have := hs h k' [::]; rewrite -cats1 => /(_ erefl); by case.
Qed.
End History.
