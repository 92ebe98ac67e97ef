(** Proofs about the state of the commitment scheme along the Placeholder preprocessor, prover and verifier. *)
From Coq Require Import NArith.
From mathcomp Require Import all_ssreflect all_algebra.
From Verif.Model Require Import Base OrderedMap HashMap Domain Expression PlonkVariable PlonkTable CycleRepresentation PolysEvaluator
  PermutationArgument GatesArgument LookupArgument Quotient Placeholder.
From Verif.Proofs Require Import NatTac DomainProofs PermProofs TableProofs KzgProofs EvaluatorProofs MapProofs PlaceholderProofs.
Set Implicit Arguments.
Unset Strict Implicit.
Unset Printing Implicit Defensive.
Import GRing.Theory.
Local Open Scope ring_scope.

Lemma om_ext (A : Type) (m m' : omapT A) : sorted ltn (om_keys m) -> sorted ltn (om_keys m') ->
  (forall k, om_get m k = om_get m' k) -> m = m'.
Proof.
move=> hs hs' h; have hk : om_keys m = om_keys m'.
  by apply: keys_eq => // k; rewrite -!om_get_mem h.
elim: m m' hs hs' h hk => [|[k x] m ih] [|[k' x'] m'] //= hs hs' h [ek hk]; subst k'.
have ex : x = x' by have := h k; rewrite eqxx => -[].
congr ((_, _) :: _) => //; apply: ih hk; [exact: path_sorted hs|exact: path_sorted hs'|move=> k'; have := h k'].
case: (k =P k') => // <- _; rewrite !om_get_noneP //.
  by apply/negP => hm; move: hs'; rewrite path_sortedE; [move=> /andP[/allP /(_ _ hm)]; rewrite /= ltnn|exact: ltn_trans].
by apply/negP => hm; move: hs; rewrite path_sortedE; [move=> /andP[/allP /(_ _ hm)]; rewrite /= ltnn|exact: ltn_trans].
Qed.

Section State.
Variables (F : fieldType) (C : Type) (committable : seq {poly F} -> bool) (commit_polys : seq {poly F} -> C).
Notation sc_commit := (sc_commit committable commit_polys).
Implicit Types (s : scheme F C) (P : nat -> option (seq {poly F})) (L : nat -> bool).

(** The scheme holds the batches [P], of which those in [L] are committed and have no points yet. *)
Record holds s P L : Prop := Holds {
  h_z : ev_z (sc_ev s) = [::];
  h_sorted : sorted ltn (om_keys (ev_polys (sc_ev s))) && sorted ltn (om_keys (ev_points (sc_ev s))) && sorted ltn (om_keys (sc_commitments s));
  h_polys : forall k, om_get (ev_polys (sc_ev s)) k = P k;
  h_locked : forall k, odflt false (om_get (ev_locked (sc_ev s)) k) = L k;
  h_points : forall k, om_get (ev_points (sc_ev s)) k = if L k then Some (nseq (size (odflt [::] (P k))) [::]) else None;
  h_commitments : forall k, om_get (sc_commitments s) k = if L k then Some (commit_polys (odflt [::] (P k))) else None }.
Definition upd (A : Type) (f : nat -> A) (k : nat) (x : A) : nat -> A := fun k' => if k == k' then x else f k'.

Lemma holds_ext s P P' L L' : holds s P L -> P =1 P' -> L =1 L' -> holds s P' L'.
Proof.
case=> h1 h2 h3 h4 h5 h6 e e'; split=> // k; first by rewrite h3 e.
- by rewrite h4 e'.
- by rewrite h5 e e'.
by rewrite h6 e e'.
Qed.
Definition fresh : scheme F C := Scheme (ev_empty F) [::].
Lemma holds_fresh : holds fresh (fun=> None) (fun=> false). Proof. by []. Qed.

Lemma holds_append s P L k ps : holds s P L -> ~~ L k ->
  exists2 s', sc_append s k ps = Some s' & holds s' (upd P k (Some (odflt [::] (P k) ++ ps))) L.
Proof.
case=> h1 /andP[/andP[h2 h2'] h2''] h3 h4 h5 h6 hk; rewrite /sc_append /append_all_to_batch h4 hk h3 /=; eexists; first by [].
split=> //=; first by rewrite h2' h2'' sorted_om_set.
- by move=> k'; rewrite om_get_set h3.
- by move=> k'; rewrite om_get_set; case: eqP => [<-|_] //=; rewrite (negbTE hk).
- by move=> k'; rewrite h5 /upd; case: eqP => // <-; rewrite (negbTE hk).
- by move=> k'; rewrite h6 /upd; case: eqP => // <-; rewrite (negbTE hk).
Qed.
Lemma holds_commit s P L k : holds s P L -> ~~ L k ->
  sc_commit s k = (if committable (odflt [::] (P k)) then sc_commit s k else None) /\
  (committable (odflt [::] (P k)) -> exists2 s', sc_commit s k = Some (commit_polys (odflt [::] (P k)), s') &
    holds s' (upd P k (Some (odflt [::] (P k)))) (upd L k true)).
Proof.
case=> h1 /andP[/andP[h2 h2'] h2''] h3 h4 h5 h6 hk; rewrite /sc_commit /state_commited /= h3 om_get_set eqxx /=.
split=> [|hc]; first by case: ifP.
rewrite hc; eexists; first by [].
split=> //=; first by rewrite !sorted_om_set.
- by move=> k'; rewrite om_get_set h3.
- by move=> k'; rewrite om_get_set /upd; case: eqP => //= _; rewrite h4.
- move=> k'; rewrite om_get_set /upd; case: eqP => _; last by rewrite h5.
  by rewrite h5 (negbTE hk) /= /vresize /= subn0.
- by move=> k'; rewrite om_get_set /upd h6; case: eqP.
Qed.
Lemma holds_commit_inv s P L k c s' : holds s P L -> ~~ L k -> sc_commit s k = Some (c, s') ->
  [/\ committable (odflt [::] (P k)), c = commit_polys (odflt [::] (P k)) & holds s' (upd P k (Some (odflt [::] (P k)))) (upd L k true)].
Proof.
move=> h hk; have [e hc] := holds_commit h hk; move: e; case: ifP => [/hc[s1 -> h1] _ [<- <-]|_ ->] //.
Qed.
Lemma holds_append_inv s P L k ps s' : holds s P L -> ~~ L k -> sc_append s k ps = Some s' ->
  holds s' (upd P k (Some (odflt [::] (P k) ++ ps))) L.
Proof. by move=> h hk; have [s1 -> h1] := holds_append ps h hk; case=> <-. Qed.

(** The verifier's [set_batch_size] on a batch that it does not have. *)
Definition sized s (n : nat -> option nat) : Prop :=
  [/\ ev_z (sc_ev s) = [::], sorted ltn (om_keys (ev_points (sc_ev s))),
      forall k, odflt false (om_get (ev_locked (sc_ev s)) k) = isSome (n k) &
      forall k, om_get (ev_points (sc_ev s)) k = omap (fun m => nseq m [::]) (n k)].
Lemma holds_sized s P L : holds s P L -> sized s (fun k => if L k then Some (size (odflt [::] (P k))) else None).
Proof.
case=> h1 /andP[/andP[h2 h2'] h2''] h3 h4 h5 h6; split=> //= k; first by rewrite h4; case: (L k).
by rewrite h5; case: (L k).
Qed.
Lemma sized_set s n k m : sized s n -> n k = None ->
  sized (Scheme (set_batch_size (sc_ev s) k m) (sc_commitments s)) (upd n k (Some m)).
Proof.
case=> h1 h2 h3 h4 hk; split=> //=; first exact: sorted_om_set.
  by move=> k'; rewrite om_get_set /upd; case: eqP => //=.
by move=> k'; rewrite om_get_set /upd h4 hk; case: eqP => //= _; rewrite /vresize /= subn0.
Qed.
Lemma sized_ext s n n' : sized s n -> n =1 n' -> sized s n'.
Proof. by case=> h1 h2 h3 h4 e; split=> // k; rewrite ?h3 ?h4 e. Qed.
Lemma size_batch s n k : sized s n -> size (batch_points (sc_ev s) k) = odflt 0%N (n k).
Proof. by case=> _ _ _ h; rewrite /batch_points h; case: (n k) => //= m; rewrite size_nseq. Qed.
Lemma nth_batch s n k i : sized s n -> nth [::] (batch_points (sc_ev s) k) i = [::].
Proof. by case=> _ _ _ h; rewrite /batch_points h; case: (n k) => [m|] /=; rewrite ?nth_nseq ?nth_nil // if_same. Qed.
Definition call_in (n : nat -> option nat) (c : point_call F) : bool :=
  isSome (n c.1.1) && (if c.1.2 is Some i then (i < odflt 0%N (n c.1.1))%N else true).
Lemma sized_ok s n (c : point_call F) : sized s n -> call_in n c -> call_ok (sc_ev s) c.
Proof.
move=> h /andP[hn hi]; have hs := size_batch c.1.1 h; case: h => h1 h2 h3 h4; rewrite /call_ok h3 hn hs hi andbT /= -om_get_mem h4.
by case: (n c.1.1) hn.
Qed.
(** The points after a list of calls. *)
Lemma sized_points s n calls : sized s n -> all (call_in n) calls ->
  exists2 ev, ofold (@append_point F) (sc_ev s) calls = Some ev &
    [/\ ev_polys ev = ev_polys (sc_ev s), ev_z ev = [::], ev_locked ev = ev_locked (sc_ev s), sorted ltn (om_keys (ev_points ev)) &
        forall k, om_get (ev_points ev) k = omap (fun m => [seq call_points calls k i | i <- iota 0 m]) (n k)].
Proof.
move=> h hc; have hs k := size_batch k h; have hn k i := nth_batch k i h.
have ok : all (call_ok (sc_ev s)) calls by apply/sub_all: hc => c; apply: sized_ok h.
have [h1 h2 h3 h4] := h; have [pts -> [hk hp]] := append_points_ok h2 ok.
eexists; first by []; split=> //; first by rewrite /= hk.
move=> k; have := hp k; have hm : isSome (om_get pts k) = isSome (n k).
  by rewrite om_get_mem hk -om_get_mem h4; case: (n k).
rewrite hs /=; case: (n k) hm => [m|] /=; case: (om_get pts k) => //= x _ ->; congr Some.
by apply: eq_map => i; rewrite hn.
Qed.
End State.
