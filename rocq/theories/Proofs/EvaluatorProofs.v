(** Proofs about the shared state of the batched commitment schemes. *)
From mathcomp Require Import all_ssreflect all_algebra.
From Verif.Model Require Import Base Domain OrderedMap PolysEvaluator PlonkTable.
From Verif.Proofs Require Import NatTac DomainProofs PermProofs TableProofs KzgProofs.
Set Implicit Arguments.
Unset Strict Implicit.
Unset Printing Implicit Defensive.
Import GRing.Theory.
Local Open Scope ring_scope.

Lemma om_get_in (T : eqType) (m : omapT T) (x : nat * T) : sorted ltn (om_keys m) -> x \in m -> om_get m x.1 = Some x.2.
Proof.
elim: m => //= -[k y] m ih hs; rewrite inE => /orP[/eqP->|hx] /=; first by rewrite eqxx.
have hlt : (k < x.1)%N.
  by move: hs; rewrite path_sortedE; [move=> /andP[/allP h _]; apply: h; apply: map_f | exact: ltn_trans].
by rewrite ltn_eqF // ih // (path_sorted hs).
Qed.
Lemma ofold_set (T : Type) (E : eqType) (key : E -> nat) (m : seq E) (f : omapT T -> E -> option (omapT T)) (r : nat -> T) z :
  {in m, forall x z, f z x = Some (om_set z (key x) (r (key x)))} ->
  exists2 z', ofold f z m = Some z' & (forall k, om_get z' k = if k \in map key m then Some (r k) else om_get z k)
    /\ (sorted ltn (om_keys z) -> sorted ltn (om_keys z')).
Proof.
elim: m z => [|x m ih] z h /=; first by exists z.
rewrite h ?mem_head //=; have [|z' e [h1 h2]] := ih (om_set z (key x) (r (key x))).
  by move=> y hy; apply: h; rewrite inE hy orbT.
exists z' => //; split=> [k|hs]; last by apply: h2; apply: sorted_om_set.
rewrite h1 inE om_get_set eq_sym; case: eqP => [->|_] /=; last by [].
by case: ifP.
Qed.
Lemma ofold_some (A : eqType) (C : Type) (f : C -> A -> option C) (g : C -> A -> C) (s : seq A) c :
  {in s, forall x c, f c x = Some (g c x)} -> ofold f c s = Some (foldl g c s).
Proof.
elim: s c => //= x s ih c h; rewrite h ?mem_head //= ih // => y hy; apply: h.
by rewrite inE hy orbT.
Qed.
Lemma eq_in_ofold (A : eqType) (C : Type) (f g : C -> A -> option C) (s : seq A) c :
  {in s, forall x c, f c x = g c x} -> ofold f c s = ofold g c s.
Proof.
elim: s c => //= x s ih c h; rewrite h ?mem_head //; case: (g c x) => //= c'; apply: ih => y hy; apply: h.
by rewrite inE hy orbT.
Qed.

Section Ready.
Variable F : fieldType.
Variables (polys : omapT (seq {poly F})) (points : omapT (seq (seq F))).

(** The polynomials, the points and their numbers, by index *)
Definition nP k := size (odflt [::] (om_get polys k)).
Definition Pq (ki : nat * nat) : {poly F} := nth 0 (odflt [::] (om_get polys ki.1)) ki.2.
Definition Sq (ki : nat * nat) : seq F := nth [::] (odflt [::] (om_get points ki.1)) ki.2.
Definition Uq ki : {poly F} := Upoly (Pq ki) (Sq ki).
Definition idxs : seq (nat * nat) := [seq (k, i) | k <- om_keys polys, i <- iota 0 (nP k)].
Definition zval k : seq (seq F) := [seq [seq (Pq (k, i)).[x] | x <- Sq (k, i)] | i <- iota 0 (nP k)].

Hypothesis sp : sorted ltn (om_keys polys).
Hypothesis kk : om_keys points = om_keys polys.
Hypothesis ss : forall k, size (odflt [::] (om_get points k)) = nP k.

Lemma idxsP k i : (k, i) \in idxs = (k \in om_keys polys) && (i < nP k)%N.
Proof.
apply/idP/idP.
  by move=> /allpairsPdep[k' [i' [h1 h2 [-> ->]]]]; rewrite h1; move: h2; rewrite mem_iota add0n.
by move=> /andP[h1 h2]; apply/allpairsPdep; exists k, i; rewrite h1 mem_iota add0n h2.
Qed.
Lemma polys_at k : k \in om_keys polys -> exists2 ps, om_get polys k = Some ps & size ps = nP k.
Proof. by move=> /om_get_someP[ps e]; exists ps => //; rewrite /nP e. Qed.
Lemma points_at k : k \in om_keys polys -> exists2 ps, om_get points k = Some ps & size ps = nP k.
Proof. by rewrite -kk => /om_get_someP[ps e]; exists ps => //; rewrite -ss e. Qed.
Lemma idx_poly ki : ki \in idxs -> om_get2 polys ki = Some (Pq ki).
Proof.
case: ki => k i; rewrite idxsP => /andP[/polys_at[ps e es] hi]; rewrite /om_get2 /Pq /= e /=.
by rewrite (vget_nth 0) ?es.
Qed.
Lemma idx_points ki : ki \in idxs -> om_get2 points ki = Some (Sq ki).
Proof.
case: ki => k i; rewrite idxsP => /andP[/points_at[ps e es] hi]; rewrite /om_get2 /Sq /= e /=.
by rewrite (vget_nth [::]) ?es.
Qed.
Lemma size_zval k : size (zval k) = nP k. Proof. by rewrite size_map size_iota. Qed.
Lemma zval_at k i : (i < nP k)%N -> vget (zval k) i = Some [seq (Pq (k, i)).[x] | x <- Sq (k, i)].
Proof.
by move=> h; rewrite (vget_nth [::]) ?size_zval // (nth_map 0%N) ?size_iota // nth_iota.
Qed.

Lemma eval_polys_all z l : exists2 z', eval_polys (Evaluator z polys l points) = Some (Evaluator z' polys l points) &
  forall k, om_get z' k = if k \in om_keys polys then Some (zval k) else om_get z k.
Proof.
rewrite /eval_polys /=.
have H : {in polys, forall e z, (olet pts <- om_get points e.1; olet r <- eval_batch e.2 pts; Some (om_set z e.1 r))
    = Some (om_set z e.1 (zval e.1))}.
  move=> e he z1; have hk : e.1 \in om_keys polys by apply: map_f.
  have [pts ep sp'] := points_at hk; rewrite ep /=.
  have ee : om_get polys e.1 = Some e.2 := om_get_in sp he.
  have sn : size e.2 = nP e.1 by rewrite /nP ee.
  rewrite /eval_batch sn sp' eqxx /= (omapM_some (g := fun i => [seq (Pq (e.1, i)).[x] | x <- Sq (e.1, i)])) // => i.
  rewrite mem_iota add0n => hi; rewrite (vget_nth 0) ?sn //= (vget_nth [::]) ?sp' //=.
  by rewrite /Pq /Sq /= ee ep.
by have [z' -> [h _]] := ofold_set (key := fst) z H; exists z'.
Qed.
Lemma eval_polysE z l : exists2 z', eval_polys (Evaluator z polys l points) = Some (Evaluator z' polys l points) &
  {in om_keys polys, forall k, om_get z' k = Some (zval k)}.
Proof. by have [z' e h] := eval_polys_all z l; exists z' => // k hk; rewrite h hk. Qed.
Lemma get_UE z' l ps' k i : {in om_keys polys, forall k, om_get z' k = Some (zval k)} -> (k, i) \in idxs ->
  get_U (Evaluator z' ps' l points) k i = Some (Uq (k, i)).
Proof.
move=> hz; rewrite idxsP => /andP[hk hi]; have [pts ep sp'] := points_at hk.
rewrite /get_U /= ep /= (vget_nth [::]) ?sp' //= hz //= zval_at //=.
have -> : nth [::] pts i = Sq (k, i) by rewrite /Sq /= ep.
by rewrite size_map eqxx.
Qed.
End Ready.
