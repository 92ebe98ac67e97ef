(** Lemmas about the cycles of Model/CycleRepresentation.v. *)
From mathcomp Require Import all_ssreflect.
From Verif.Model Require Import Base OrderedMap CycleRepresentation.
From Verif.Proofs Require Import NatTac.
Set Implicit Arguments.
Unset Strict Implicit.
Unset Printing Implicit Defensive.

Section AMapLemmas.
Variables (K : eqType) (T : Type).
Implicit Types m : amap K T.
Lemma am_get_set m k x k' : am_get (am_set m k x) k' = if k == k' then Some x else am_get m k'.
Proof.
elim: m => [|[k1 y] m ih] /=; first by [].
case: eqP => [->|/eqP n] /=; first by case: eqP.
by rewrite ih; case: (eqVneq k k') => [e|//]; case: eqP => // e1; rewrite e1 e eqxx in n.
Qed.
Lemma am_get_mem m k : isSome (am_get m k) = am_count m k.
Proof.
elim: m => [|[k1 y] m ih] //=; rewrite /am_count /= inE [k == _]eq_sym; case: eqP => //= _; exact: ih.
Qed.
Lemma am_count_set m k x k' : am_count (am_set m k x) k' = (k' == k) || am_count m k'.
Proof. by rewrite -!am_get_mem am_get_set eq_sym; case: eqP. Qed.
Lemma am_get_some m k : am_count m k -> exists x, am_get m k = Some x.
Proof. by rewrite -am_get_mem; case: (am_get m k) => // x _; exists x. Qed.
Lemma am_keys_set m k x : [seq e.1 | e <- am_set m k x] = if am_count m k then [seq e.1 | e <- m] else rcons [seq e.1 | e <- m] k.
Proof.
elim: m => [|[k1 y] m ih] //=; rewrite /am_count /= inE [k == _]eq_sym; case: eqP => [->|_] //=.
by rewrite ih /am_count; case: (k \in _).
Qed.
Lemma am_uniq_set m k x : uniq [seq e.1 | e <- m] -> uniq [seq e.1 | e <- am_set m k x].
Proof. by rewrite am_keys_set; case e: (am_count m k) => // h; rewrite rcons_uniq h andbT; apply/negbT. Qed.
End AMapLemmas.

(** ** Reachability by iterating a function *)
Section Reach.
Variable K : eqType.
Implicit Types (f : K -> K) (x y z l r : K).
Definition reach f x y := exists n, iter n f x = y.
Definition periodic f := forall x, exists n, iter n.+1 f x = x.

Lemma reach_refl f x : reach f x x. Proof. by exists 0. Qed.
Lemma reach_trans f x y z : reach f x y -> reach f y z -> reach f x z.
Proof. by move=> [n <-] [m <-]; exists (m + n); rewrite iterD. Qed.
Lemma reach_step f x y : reach f x y -> reach f x (f y).
Proof. by move=> [n <-]; exists n.+1. Qed.
Lemma reach1 f x : reach f x (f x). Proof. by exists 1. Qed.
Lemma reach_sym f x y : periodic f -> reach f x y -> reach f y x.
Proof.
move=> p [n <-]; have [m hm] := p x; elim: n => [|n ih]; first exact: reach_refl.
have back : reach f (f (iter n f x)) (iter n f x).
  exists m; rewrite -iterSr; have -> : iter m.+1 f (iter n f x) = iter n f (iter m.+1 f x) by rewrite -!iterD addnC.
  by rewrite hm.
exact: reach_trans back ih.
Qed.
Lemma reach_ind f (P : K -> K -> Prop) : (forall x, P x x) -> (forall x y z, P x y -> P y z -> P x z) ->
  (forall x, P x (f x)) -> forall x y, reach f x y -> P x y.
Proof. by move=> h1 h2 h3 x y [n <-]; elim: n => [|n ih] //=; apply: h2 ih (h3 _). Qed.

(** an injective map that permutes a finite set and fixes the rest is periodic *)
Lemma inj_periodic f (s : seq K) : injective f -> (forall x, x \in s -> f x \in s) ->
  (forall x, x \notin s -> f x = x) -> forall x, exists2 n, n < maxn 1 (size s) & iter n.+1 f x = x.
Proof.
move=> fi cl fx x; case hx : (x \in s); last first.
  by exists 0; rewrite ?leq_max //= fx // hx.
have hl : looping f x (size s).
  apply: contraT; rewrite -looping_uniq => hu.
  have sub : {subset traject f x (size s).+1 <= s}.
    move=> y /trajectP[i _ ->]; elim: i => //= i ih; exact: cl.
  by have := uniq_leq_size hu sub; rewrite size_traject ltnn.
move: hl; rewrite /looping => /trajectP[i hi e].
exists (size s - i).-1; first by rewrite leq_max; apply/orP; right; slia.
have -> : (size s - i).-1.+1 = size s - i by slia.
have ii : injective (iter i f) by elim: i {hi e} => [//|i ih] a b /= /fi/ih.
by apply: ii; rewrite -iterD subnKC // ltnW.
Qed.

(** exchanging the images of two elements of different cycles merges the cycles *)
Section Merge.
Variables (f f' : K -> K) (l r : K).
Hypotheses (fi : injective f) (fp : periodic f) (fp' : periodic f').
Hypotheses (hl : f' l = f r) (hr : f' r = f l) (hx : forall x, x != l -> x != r -> f' x = f x).

Lemma merge_inj : injective f'.
Proof.
pose sw x := if x == l then r else if x == r then l else x.
have e x : f' x = f (sw x).
  by rewrite /sw; case: (eqVneq x l) => [->//|h1]; case: (eqVneq x r) => [->//|h2]; apply: hx.
have swK : involutive sw.
  move=> x; rewrite {2}/sw; case: (eqVneq x l) => [->|h1].
    by rewrite /sw eqxx; case: eqP.
  by case: (eqVneq x r) => [->|h2]; rewrite /sw ?eqxx // (negbTE h1) (negbTE h2).
by move=> x y; rewrite !e => /fi/(inv_inj swK).
Qed.
Lemma merge_link (x : K) : ~ reach f x l -> reach f x r -> reach f' (f x) r.
Proof.
move=> nl hr'.
have hex : exists m, iter m f (f x) == r.
  have [m hm] := reach_trans (reach_sym fp (reach1 f x)) hr'; by exists m; apply/eqP.
case: (ex_minnP hex) => m /eqP hm hmin; exists m; rewrite -hm.
elim: {1 3 4}m (leqnn m) => [|k ih] hk //=; rewrite ih; last exact: ltnW.
apply: hx; first by apply/eqP => e; apply: nl; exists k.+1; rewrite iterSr.
by apply/negP => e; have := hmin _ e; rewrite leqNgt hk.
Qed.
Hypothesis nlr : ~ reach f l r.
Lemma merge_lr : reach f' l r.
Proof.
have h : reach f' (f r) r.
  by apply: merge_link; [move=> h; apply: nlr; apply: reach_sym h | exact: reach_refl].
by apply: reach_trans h; rewrite -hl; exact: reach1.
Qed.
Lemma merge_sub x y : reach f x y -> reach f' x y.
Proof.
apply: reach_ind => [z|x1 y1 z1|z]; [exact: reach_refl|exact: reach_trans|].
case: (eqVneq z l) => [->|h1]; first by apply: reach_trans merge_lr _; rewrite -hr; exact: reach1.
case: (eqVneq z r) => [->|h2]; last by rewrite -(hx h1 h2); exact: reach1.
by apply: reach_trans (reach_sym fp' merge_lr) _; rewrite -hl; exact: reach1.
Qed.
Lemma merge_reach x y : reach f' x y <->
  [\/ reach f x y, reach f x l /\ reach f r y | reach f x r /\ reach f l y].
Proof.
split; last first.
  case=> [h|[h1 h2]|[h1 h2]]; first exact: merge_sub.
    exact: reach_trans (merge_sub h1) (reach_trans merge_lr (merge_sub h2)).
  exact: reach_trans (merge_sub h1) (reach_trans (reach_sym fp' merge_lr) (merge_sub h2)).
move=> [n <-]; elim: n => [|n]; first by apply: Or31; exact: reach_refl.
set z := iter n f' x; rewrite [iter n.+1 f' x]/=  -/z => ih.
case: (eqVneq z l) => [e|h1].
  rewrite e hl; rewrite e in ih; case: ih => [h|[h _]|[h1 h2]].
  - by apply: Or32; split=> //; exact: reach1.
  - by apply: Or32; split=> //; exact: reach1.
  by apply: Or31; exact: reach_step.
case: (eqVneq z r) => [e|h2].
  rewrite e hr; rewrite e in ih; case: ih => [h|[h _]|[h _]].
  - by apply: Or33; split=> //; exact: reach1.
  - by apply: Or31; exact: reach_step.
  by apply: Or33; split=> //; exact: reach1.
rewrite (hx h1 h2); case: ih => [h|[h h']|[h h']].
- by apply: Or31; exact: reach_step.
- by apply: Or32; split=> //; exact: reach_step.
by apply: Or33; split=> //; exact: reach_step.
Qed.
End Merge.
End Reach.

(** ** The invariant of the cycles *)
Section Inv.
Variable K : eqType.
Implicit Types (c : cycles K) (x y z l r : K).
Definition mapf c x := odflt x (am_get (cy_mapping c) x).
Definition auxf c x := odflt x (am_get (cy_aux c) x).
Local Arguments mapf : simpl never.
Local Arguments auxf : simpl never.
Record Inv c : Prop := MkInv {
  iv_uniq : uniq [seq e.1 | e <- cy_mapping c];
  iv_aux : am_count (cy_aux c) =1 am_count (cy_mapping c);
  iv_sizes : am_count (cy_sizes c) =1 am_count (cy_mapping c);
  iv_inj : injective (mapf c);
  iv_cl : forall x, am_count (cy_mapping c) x -> am_count (cy_mapping c) (mapf c x);
  iv_reach : forall x, reach (mapf c) x (auxf c x);
  iv_const : forall x, auxf c (mapf c x) = auxf c x }.

Lemma mapf_some c x : am_count (cy_mapping c) x -> am_get (cy_mapping c) x = Some (mapf c x).
Proof. by rewrite /mapf; case/am_get_some => y ->. Qed.
Lemma auxf_some c x : Inv c -> am_count (cy_mapping c) x -> am_get (cy_aux c) x = Some (auxf c x).
Proof. by move=> iv; rewrite -(iv_aux iv) /auxf; case/am_get_some => y ->. Qed.
Lemma mapf_out c x : ~~ am_count (cy_mapping c) x -> mapf c x = x.
Proof. by rewrite -am_get_mem /mapf; case: am_get. Qed.

Lemma iv_period c x : Inv c -> exists2 n, n < maxn 1 (size (cy_mapping c)) & iter n.+1 (mapf c) x = x.
Proof.
move=> iv; have := @inj_periodic _ (mapf c) [seq e.1 | e <- cy_mapping c] (iv_inj iv) _ _ x.
by rewrite size_map; apply; [exact: iv_cl iv|exact: mapf_out].
Qed.
Lemma iv_periodic c : Inv c -> periodic (mapf c).
Proof. by move=> iv x; have [n _ h] := iv_period x iv; exists n. Qed.
Lemma iv_reach_const c x y : Inv c -> reach (mapf c) x y -> auxf c x = auxf c y.
Proof. by move=> iv [n <-]; elim: n => //= n ->; rewrite (iv_const iv). Qed.
Lemma iv_reach_aux c x y : Inv c -> auxf c x = auxf c y -> reach (mapf c) x y.
Proof.
move=> iv e; apply: reach_trans (iv_reach iv x) _; rewrite e.
exact: reach_sym (iv_periodic iv) (iv_reach iv y).
Qed.
Lemma iv_reach_cl c x y : Inv c -> reach (mapf c) x y -> am_count (cy_mapping c) x -> am_count (cy_mapping c) y.
Proof. by move=> iv [n <-] h; elim: n => //= n ih; exact: (iv_cl iv ih). Qed.

Lemma Inv_add c x : Inv c -> ~~ am_count (cy_mapping c) x -> Inv (cy_add c x) /\ mapf (cy_add c x) =1 mapf c.
Proof.
move=> iv hx.
have em : mapf (cy_add c x) =1 mapf c.
  move=> y; rewrite /mapf /= am_get_set; case: (eqVneq x y) => // <-.
  by move: hx; rewrite -am_get_mem; case: am_get.
have ea : auxf (cy_add c x) =1 auxf c.
  move=> y; rewrite /auxf /= am_get_set; case: (eqVneq x y) => // <-.
  by move: hx; rewrite -(iv_aux iv) -am_get_mem; case: am_get.
have er y z : reach (mapf c) y z -> reach (mapf (cy_add c x)) y z.
  by move=> [n <-]; exists n; apply: eq_iter.
split=> //; split=> /=.
- exact: am_uniq_set (iv_uniq iv).
- by move=> y; rewrite !am_count_set (iv_aux iv).
- by move=> y; rewrite !am_count_set (iv_sizes iv).
- by move=> y z; rewrite !em; exact: iv_inj iv _ _.
- move=> y; rewrite em !am_count_set => /orP[/eqP->|h]; first by rewrite mapf_out // eqxx.
  by rewrite (iv_cl iv h) orbT.
- by move=> y; rewrite ea; apply: er; exact: iv_reach iv _.
by move=> y; rewrite em !ea (iv_const iv).
Qed.
Lemma Inv_ensure c x : Inv c -> [/\ Inv (cy_ensure c x), mapf (cy_ensure c x) =1 mapf c, am_count (cy_mapping (cy_ensure c x)) x &
  forall y, am_count (cy_mapping c) y -> am_count (cy_mapping (cy_ensure c x)) y].
Proof.
move=> iv; rewrite /cy_ensure; case: ifPn => h; first by split.
have [h1 h2] := Inv_add iv h; split=> //=; first by rewrite am_count_set eqxx.
by move=> y hy; rewrite am_count_set hy orbT.
Qed.

Lemma or3_iff (A B C A' B' C' : Prop) : (A <-> A') -> (B <-> B') -> (C <-> C') -> ([\/ A, B | C] <-> [\/ A', B' | C']).
Proof. by move=> h1 h2 h3; split=> -[/h1|/h2|/h3] h; [apply: Or31|apply: Or32|apply: Or33|apply: Or31|apply: Or32|apply: Or33]. Qed.
Lemma or3C (A B C : Prop) : [\/ A, B | C] <-> [\/ A, C | B].
Proof. by split=> -[] h; [apply: Or31|apply: Or33|apply: Or32|apply: Or31|apply: Or33|apply: Or32]. Qed.
Lemma count_ensure c x k : am_count (cy_mapping (cy_ensure c x)) k = (k == x) || am_count (cy_mapping c) k.
Proof.
rewrite /cy_ensure; case: ifPn => h /=; last by rewrite am_count_set.
by case: eqP => [->|].
Qed.

Lemma relabelE fuel (m aux : amap K K) (f : K -> K) l al z e k : k < fuel ->
  (forall i, i <= k -> am_get m (iter i f z) = Some (iter i.+1 f z)) ->
  (forall i, i < k -> iter i.+1 f z != e) -> iter k.+1 f z = e ->
  l \notin traject f z k.+1 -> am_get aux l = Some al ->
  exists2 aux', relabel fuel m aux l z e = Some aux' &
    forall w, am_get aux' w = if w \in traject f z k.+1 then Some al else am_get aux w.
Proof.
elim: k fuel z aux => [|k ih] [|fuel] // z aux hf hm hne he hl ha /=; rewrite ha /= (hm 0) //=.
  move: he => /= ->; rewrite eqxx /=; eexists; first by [].
  by move=> w; rewrite am_get_set /= inE eq_sym.
move: (hne 0 isT) => /= ->.
have hl' : l \notin traject f (f z) k.+1 by move: hl; rewrite trajectS inE negb_or => /andP[].
have zl : z != l by move: hl; rewrite trajectS inE negb_or eq_sym => /andP[].
case: (ih fuel (f z) (am_set aux z al)) => //.
- by move=> i hi; rewrite -!iterSr; apply: hm.
- by move=> i hi; rewrite -iterSr; apply: hne.
- by rewrite -iterSr.
- by rewrite am_get_set (negbTE zl).
move=> aux' -> hw; exists aux' => // w; rewrite hw am_get_set -[z :: f z :: _]/(z :: traject f (f z) k.+1) inE [w == z]eq_sym.
by case: (eqVneq z w) => [->|_] /=; case: ifP.
Qed.

Lemma apply_merge c x y l r : Inv c -> am_count (cy_mapping c) l -> am_count (cy_mapping c) r ->
  auxf c l != auxf c r ->
  exists aux, relabel (size (cy_mapping c)) (cy_mapping c) (cy_aux c) l (auxf c r) (auxf c r) = Some aux /\
    forall sizes, am_count sizes =1 am_count (cy_mapping c) ->
    let c' := Cycles (am_set (am_set (cy_mapping c) l (mapf c r)) r (mapf c l)) aux sizes in
    [/\ Inv c', am_count (cy_mapping c') =1 am_count (cy_mapping c) & forall u v, reach (mapf c') u v <->
     [\/ reach (mapf c) u v, reach (mapf c) u l /\ reach (mapf c) r v | reach (mapf c) u r /\ reach (mapf c) l v]].
Proof.
move=> iv cl cr hlr; set f := mapf c; set z := auxf c r.
have nlr : ~ reach f l r by move=> h; move: hlr; rewrite (iv_reach_const iv h) eqxx.
have fp := iv_periodic iv.
have hz : reach f r z by exact: iv_reach iv r.
have cz : am_count (cy_mapping c) z by exact: iv_reach_cl iv hz cr.
have hsz : 0 < size (cy_mapping c).
  by move: cl; rewrite /am_count; case: (cy_mapping c).
have hex : exists n, iter n.+1 f z == z.
  by have [n _ h] := iv_period z iv; exists n; apply/eqP.
case: (ex_minnP hex) => n /eqP hn hmin.
have hnb : n < size (cy_mapping c).
  have [k hk /eqP hk'] := iv_period z iv; apply: leq_ltn_trans (hmin k hk') _.
  by move: hk; rewrite (maxn_idPr hsz).
have trE w : (w \in traject f z n.+1) <-> reach f r w.
  split=> [/trajectP[i _ ->]|]; first by apply: reach_trans hz _; exists i.
  move=> h; have [k <-] := reach_trans (reach_sym fp hz) h.
  elim: k => [|k /trajectP[i hi e]]; first by rewrite trajectS inE eqxx.
  rewrite iterS -/f e.
  apply/trajectP; case: (leqP n i) => hni; last by exists i.+1.
  have -> : i = n by move: hi hni; slia.
  by exists 0 => //; rewrite -iterS hn.
have ltr : l \notin traject f z n.+1.
  by apply/negP => /trE h; apply: nlr; exact: reach_sym fp h.
case: (@relabelE (size (cy_mapping c)) (cy_mapping c) (cy_aux c) f l (auxf c l) z z n) => //.
- move=> i hi; rewrite mapf_some //.
  by apply: iv_reach_cl iv _ cz; exists i.
- by move=> i hi; apply/negP => h; have := hmin i h; rewrite leqNgt hi.
- by rewrite auxf_some.
move=> aux ha hw; exists aux; split=> // sizes hs; set c' := Cycles _ _ _.
have lr : l != r by apply: contraNneq hlr => ->.
have cnt : am_count (cy_mapping c') =1 am_count (cy_mapping c).
  move=> w; rewrite /= !am_count_set; case: eqP => [->|_] /=; first by rewrite cr.
  by case: eqP => [->|_] //=; rewrite cl.
have fl : mapf c' l = f r by rewrite /mapf /= !am_get_set eq_sym (negbTE lr) eqxx.
have fr : mapf c' r = f l by rewrite /mapf /= !am_get_set eqxx.
have fx w : w != l -> w != r -> mapf c' w = f w.
  by move=> h1 h2; rewrite /mapf /= !am_get_set eq_sym (negbTE h2) eq_sym (negbTE h1).
have fi' := merge_inj (iv_inj iv) fl fr fx.
have cl' w : am_count (cy_mapping c') w -> am_count (cy_mapping c') (mapf c' w).
  rewrite !cnt; case: (eqVneq w l) => [->|h1]; first by rewrite fl => _; exact: iv_cl iv _ cr.
  by case: (eqVneq w r) => [->|h2]; [rewrite fr => _; exact: iv_cl iv _ cl | rewrite fx //; exact: iv_cl iv _].
have out' w : w \notin [seq e.1 | e <- cy_mapping c'] -> mapf c' w = w by exact: mapf_out.
have fp' : periodic (mapf c').
  by move=> w; have [k _ hk] := @inj_periodic _ (mapf c') _ fi' cl' out' w; exists k.
have mr := merge_reach fp fp' fl fr fx nlr.
have ea w : auxf c' w = if w \in traject f z n.+1 then auxf c l else auxf c w.
  by rewrite /auxf /= hw; case: ifP => // _.
split=> //; split=> //.
- by apply: am_uniq_set; apply: am_uniq_set; exact: iv_uniq iv.
- move=> w; rewrite cnt -(iv_aux iv) -!am_get_mem hw; case: ifP => // /trE h.
  by rewrite auxf_some //; apply: iv_reach_cl iv h cr.
- by move=> w; rewrite hs cnt.
- move=> w; rewrite ea; apply/mr; case: ifP => [/trE h|_]; last by apply: Or31; exact: iv_reach iv w.
  by apply: Or33; split; [exact: reach_sym fp h | exact: iv_reach iv l].
have tr_l w : reach f l w -> (w \in traject f z n.+1) = false.
  move=> h; apply/negP => /trE h'; apply: nlr; apply: reach_trans h (reach_sym fp h').
have tr_r w : reach f r w -> (w \in traject f z n.+1) by move/trE.
move=> w; rewrite !ea; case: (eqVneq w l) => [->|h1].
  by rewrite fl tr_r ?tr_l //; [exact: reach_refl | exact: reach1].
case: (eqVneq w r) => [->|h2].
  by rewrite fr tr_l ?tr_r ?(iv_const iv) //; [exact: reach_refl | exact: reach1].
rewrite fx // (iv_const iv).
case e1 : (w \in _); case e2 : (f w \in _) => //.
  by move: e2; rewrite tr_r //; apply: reach_step; apply/trE.
move/negP: e1; case; apply/trE; apply: reach_trans (reach_sym fp (reach1 f w)); exact/trE.
Qed.

Theorem apply_copy_constraintE c x y : Inv c -> exists c', [/\ apply_copy_constraint c x y = Some c', Inv c',
  (forall k, am_count (cy_mapping c') k = [|| k == x, k == y | am_count (cy_mapping c) k]) & forall u v, reach (mapf c') u v <->
   [\/ reach (mapf c) u v, reach (mapf c) u x /\ reach (mapf c) y v | reach (mapf c) u y /\ reach (mapf c) x v]].
Proof.
move=> iv; rewrite /apply_copy_constraint.
have [iv1 e1 c1 k1] := Inv_ensure x iv; have [iv2 e2 c2 k2] := Inv_ensure y iv1.
have cnt k : am_count (cy_mapping (cy_ensure (cy_ensure c x) y)) k = [|| k == x, k == y | am_count (cy_mapping c) k].
  by rewrite !count_ensure orbCA.
move: (cy_ensure (cy_ensure c x) y) iv2 e2 c2 cnt {k1} (k2 _ c1) => c2' iv2 e2 cy cnt cx.
have er u v : reach (mapf c2') u v <-> reach (mapf c) u v.
  by split=> -[n <-]; exists n; apply: eq_iter => w; rewrite e2 e1.
rewrite (auxf_some iv2 cx) (auxf_some iv2 cy) /=; case: eqP => /= [ea|/eqP ne].
  exists c2'; split=> // u v; rewrite er; split=> [h|[//|[h1 h2]|[h1 h2]]]; first by apply: Or31.
    by apply: reach_trans h1 (reach_trans _ h2); apply/er; exact: iv_reach_aux.
  by apply: reach_trans h1 (reach_trans _ h2); apply/er; exact: iv_reach_aux.
have cax : am_count (cy_sizes c2') (auxf c2' x) by rewrite (iv_sizes iv2); apply: iv_reach_cl iv2 (iv_reach iv2 x) cx.
have cay : am_count (cy_sizes c2') (auxf c2' y) by rewrite (iv_sizes iv2); apply: iv_reach_cl iv2 (iv_reach iv2 y) cy.
have [sx hsx] := am_get_some cax; have [sy hsy] := am_get_some cay; rewrite hsx hsy /=.
have hs a : am_count (cy_sizes c2') a -> am_count (am_set (cy_sizes c2') a (sx + sy)) =1 am_count (cy_mapping c2').
  by move=> ca w; rewrite am_count_set (iv_sizes iv2); case: eqP => [->|] //=; rewrite -(iv_sizes iv2) ca.
case: ifP => _.
  rewrite (auxf_some iv2 cx) (auxf_some iv2 cy) /=.
  have [|aux [-> H]] := @apply_merge c2' x y y x iv2 cy cx; first by rewrite eq_sym.
  rewrite /= (mapf_some cx) (mapf_some cy) /=; eexists; split; first by [].
  - by have [] := H _ (hs _ cay).
  - by have [_ h _] := H _ (hs _ cay) => k; rewrite h.
  have [_ _ h] := H _ (hs _ cay) => u v.
  by apply: iff_trans (h u v) _; apply: iff_trans (or3C _ _ _) _; apply: or3_iff; rewrite !er.
rewrite (auxf_some iv2 cx) (auxf_some iv2 cy) /=.
have [|aux [-> H]] := @apply_merge c2' x y x y iv2 cx cy; first by [].
rewrite /= (mapf_some cx) (mapf_some cy) /=; eexists; split; first by [].
- by have [] := H _ (hs _ cax).
- by have [_ h _] := H _ (hs _ cax) => k; rewrite h.
by have [_ _ h] := H _ (hs _ cax) => u v; apply: iff_trans (h u v) _; apply: or3_iff; rewrite !er.
Qed.
End Inv.
