(** Facts about vectors and [integer_permutation]. *)
From mathcomp Require Import all_ssreflect.
From Verif.Model Require Import Base IntegerPermutation.
From Verif.Proofs Require Import NatTac.
Set Implicit Arguments.
Unset Strict Implicit.
Unset Printing Implicit Defensive.

Lemma vget_nth (T : Type) (d : T) s i : i < size s -> vget s i = Some (nth d s i).
Proof. by elim: s i => [|x s IH] [|i] //=; apply: IH. Qed.
Lemma vget_None (T : Type) (s : seq T) i : size s <= i -> vget s i = None.
Proof. by elim: s i => [|x s IH] [|i] //=; apply: IH. Qed.
Lemma vset_ok (T : Type) (d : T) (s : seq T) i x : i < size s ->
  exists s', [/\ vset s i x = Some s', size s' = size s & forall j, nth d s' j = if j == i then x else nth d s j].
Proof.
move=> hi; rewrite /vset hi; eexists; split; first by reflexivity.
  by rewrite size_cat /= size_drop size_takel ?addnS -?addSn ?subnKC // ltnW.
move=> j; rewrite nth_cat size_takel ?(ltnW hi) //; case: (ltngtP j i) => h.
- by rewrite nth_take.
- have -> : (j - i = (j - i.+1).+1)%N by slia.
  by rewrite /= nth_drop; congr nth; slia.
- by rewrite h subnn.
Qed.

(** A permutation object as the constructors build it. *)
Definition ip_wf (p : iperm) := (ip_min p <= ip_max p) /\ size (ip_contents p) = ip_size p.

Lemma ip_valid_loopP mn mx elems l :
  ip_valid_loop mn mx elems l = all (fun x => mn <= x <= mx) l && uniq l && all (fun x => x \notin elems) l.
Proof.
elim: l elems => //= x l IH elems; rewrite IH /=.
case: (leqP mn x) => h1 /=; last by [].
case: (leqP x mx) => h2 //=; case: (boolP (x \in elems)) => h3 //=; first by rewrite !andbF.
rewrite -!andbA; congr (_ && _).
have -> : all (fun y => y \notin x :: elems) l = (x \notin l) && all (fun y => y \notin elems) l.
  elim: l {IH} => //= y l ->; rewrite !inE !negb_or (eq_sym y x).
  by case: (x == y) => //=; case: (y \in elems) => //=; rewrite ?andbF.
by case: (x \notin l); rewrite ?andbF.
Qed.

Lemma ip_validE p : ip_is_valid p = all (fun x => ip_min p <= x <= ip_max p) (ip_contents p) && uniq (ip_contents p).
Proof. by rewrite /ip_is_valid ip_valid_loopP andbC; have -> : all (fun x => x \notin [::]) (ip_contents p) by elim: (ip_contents p). Qed.

Lemma ip_valid_perm p : ip_wf p -> ip_is_valid p = perm_eq (ip_contents p) (iota (ip_min p) (ip_size p)).
Proof.
move=> [le sz]; rewrite ip_validE; apply/andP/idP => [[/allP h u]|h].
  apply: uniq_perm => //; first exact: iota_uniq.
  have [||_ //] := @uniq_min_size _ (ip_contents p) (iota (ip_min p) (ip_size p)) u.
    by move=> x /h; rewrite mem_iota /ip_size; slia.
  by rewrite size_iota sz.
split; last by rewrite (perm_uniq h) iota_uniq.
by apply/allP => x; rewrite (perm_mem h) mem_iota /ip_size; slia.
Qed.

Lemma ip_get_in p i : ip_wf p -> ip_min p <= i <= ip_max p ->
  ip_get p i = Some (nth 0 (ip_contents p) (i - ip_min p)).
Proof. by move=> [le sz] h; rewrite /ip_get h (vget_nth 0) // sz /ip_size; slia. Qed.

Lemma ip_set_ok p i x : ip_wf p -> ip_min p <= i <= ip_max p ->
  exists p', [/\ ip_set p i x = Some p', ip_wf p', ip_min p' = ip_min p, ip_max p' = ip_max p
   & forall j, ip_min p <= j <= ip_max p -> ip_get p' j = if j == i then Some x else ip_get p j].
Proof.
move=> w h; rewrite /ip_set h; have [le sz] := w.
have [|s' [-> s1 s2]] := @vset_ok _ 0 (ip_contents p) (i - ip_min p) x; first by rewrite sz /ip_size; slia.
eexists; split; [reflexivity | by split=> //=; rewrite s1 | by [] | by [] |].
move=> j hj; rewrite !ip_get_in //=; last by split=> //=; rewrite s1.
rewrite s2; have -> : (j - ip_min p == i - ip_min p) = (j == i) by apply/eqP/eqP; slia.
by case: (j == i).
Qed.

Lemma ip_range_wf a b : a <= b -> ip_wf (ip_range a b).
Proof. by move=> h; split=> //=; rewrite size_iota. Qed.

(** [inverse] of a valid permutation *)
Lemma ip_inverse_ok p : ip_wf p -> ip_is_valid p ->
  exists q, [/\ ip_inverse p = Some q, ip_wf q, ip_min q = ip_min p, ip_max q = ip_max p &
    forall i, ip_min p <= i <= ip_max p -> exists j, [/\ ip_min p <= j <= ip_max p, ip_get p i = Some j & ip_get q j = Some i]].
Proof.
move=> w v; have [le sz] := w; move: (v); rewrite ip_validE => /andP[/allP va vu].
set mn := ip_min p in va *; set mx := ip_max p in va *; set c := ip_contents p in va vu sz *.
pose inv (res : seq nat) k := forall i, i < k -> nth 0 res (nth 0 c i - mn) = (mn + i)%N.
have sz' : size c = (mx - mn + 1)%N by rewrite sz.
have key : forall k, k <= mx - mn + 1 -> exists res, [/\
    ofold (fun result position => obnd (vget c (position - mn)) (fun v => if v < mn then None else vset result (v - mn) position))
      (ip_contents (ip_range mn mx)) (iota mn k) = Some res, size res = (mx - mn + 1)%N & inv res k].
  elim=> [|k IH] hk.
    by exists (iota mn (mx - mn + 1)); split=> //=; rewrite size_iota.
  have [res [e s iv]] := IH (ltnW hk).
  rewrite -addn1 iotaD /=.
  have ofold_cat (l1 l2 : seq nat) (f : seq nat -> nat -> option (seq nat)) a :
     ofold f a (l1 ++ l2) = obnd (ofold f a l1) (fun b => ofold f b l2).
    by elim: l1 a => //= x l1 IHl a; case: (f a x).
  rewrite ofold_cat e /= addKn.
  have hkc : k < size c by rewrite sz'.
  rewrite (vget_nth 0 hkc) /=.
  have hm : nth 0 c k \in c by apply: mem_nth.
  have /andP[h1 h2] := va _ hm.
  rewrite ltnNge h1 /=.
  have [|s' [-> s1 s2]] := @vset_ok _ 0 res (nth 0 c k - mn) (mn + k)%N; first by rewrite s; slia.
  exists s'; split=> //; first by rewrite s1.
  move=> i; rewrite addn1 ltnS s2 leq_eqVlt => /orP[/eqP->|hi]; first by rewrite eqxx.
  case: eqP => [h|_]; last exact: iv.
  have hic : i < size c by apply: ltn_trans hkc.
  have /andP[g1 g2] := va _ (mem_nth 0 hic).
  have h' : nth 0 c i = nth 0 c k by rewrite -(subnK g1) -(subnK h1) h.
  by move/eqP: h'; rewrite nth_uniq // => /eqP->.
have [res [e s iv]] := key _ (leqnn _).
rewrite /ip_inverse -/c -/mn -/mx e /=.
have wq : ip_wf (IPerm res mn mx) by split.
eexists; split; [reflexivity | exact: wq | by [] | by [] |].
move=> i hi; have hic : i - mn < size c by rewrite sz'; slia.
have /andP[g1 g2] := va _ (mem_nth 0 hic).
exists (nth 0 c (i - mn)); split; first by rewrite g1.
  by rewrite ip_get_in.
rewrite ip_get_in //=; last by rewrite g1.
rewrite iv; last by rewrite -sz'.
by rewrite subnKC //; case/andP: hi.
Qed.

(** A permutation given pointwise. *)
Lemma ip_valid_inj p : ip_wf p ->
  (forall i, ip_min p <= i <= ip_max p -> exists2 j, ip_get p i = Some j & ip_min p <= j <= ip_max p) ->
  (forall i i' j, ip_get p i = Some j -> ip_get p i' = Some j -> i = i') -> ip_is_valid p.
Proof.
move=> w h1 h2; have [le sz] := w; rewrite ip_validE; apply/andP; split.
  apply/(all_nthP 0) => i; rewrite sz /ip_size => hi.
  have hr : ip_min p <= ip_min p + i <= ip_max p by slia.
  by have [j] := h1 _ hr; rewrite ip_get_in // addKn => -[->].
apply/(uniqP 0) => i j; rewrite !inE sz /ip_size => hi hj e.
have hri : ip_min p <= ip_min p + i <= ip_max p by slia.
have hrj : ip_min p <= ip_min p + j <= ip_max p by slia.
have := h2 (ip_min p + i) (ip_min p + j) (nth 0 (ip_contents p) i).
rewrite !ip_get_in // !addKn e => /(_ erefl erefl) /eqP; by rewrite eqn_add2l => /eqP.
Qed.

Lemma ip_valid_range p i : ip_wf p -> ip_is_valid p -> ip_min p <= i <= ip_max p ->
  exists2 j, ip_get p i = Some j & ip_min p <= j <= ip_max p.
Proof.
move=> w; rewrite ip_validE => /andP[/allP h _] hi; have [le sz] := w.
rewrite ip_get_in //; eexists; first by reflexivity.
by apply: h; apply: mem_nth; rewrite sz /ip_size; slia.
Qed.

Lemma ip_get_some p i j : ip_get p i = Some j -> ip_min p <= i <= ip_max p.
Proof. by rewrite /ip_get; case: ifP. Qed.

Lemma ip_valid_injective p i i' j : ip_wf p -> ip_is_valid p -> ip_get p i = Some j -> ip_get p i' = Some j -> i = i'.
Proof.
move=> w; rewrite ip_validE => /andP[_ u] e e'; have [le sz] := w.
have h := ip_get_some e; have h' := ip_get_some e'.
move: e e'; rewrite !ip_get_in // => -[<-] [] /eqP; rewrite nth_uniq ?sz /ip_size //; [|slia|slia].
by move=> /eqP; slia.
Qed.

Lemma ip_eq p q : ip_wf p -> ip_wf q -> ip_min p = ip_min q -> ip_max p = ip_max q ->
  (forall i, ip_min p <= i <= ip_max p -> ip_get p i = ip_get q i) -> p = q.
Proof.
move=> wp wq e1 e2 h; have [le sz] := wp; have [le' sz'] := wq.
have ec : ip_contents p = ip_contents q.
  apply: (@eq_from_nth _ 0); first by rewrite sz sz' /ip_size e1 e2.
  move=> i; rewrite sz /ip_size => hi.
  have hr : ip_min p <= ip_min p + i <= ip_max p by slia.
  by have := h _ hr; rewrite !ip_get_in // -?e1 -?e2 // !addKn => -[].
by move: ec e1 e2; case: (p) => ? ? ?; case: (q) => ? ? ? /= -> -> ->.
Qed.

Lemma ip_valid_surj p x : ip_wf p -> ip_is_valid p -> ip_min p <= x <= ip_max p -> exists i, ip_get p i = Some x.
Proof.
move=> w v h; move: (v); rewrite ip_valid_perm // => /perm_mem /(_ x).
rewrite mem_iota => e; have {e} : x \in ip_contents p by rewrite e /ip_size; slia.
move=> /(nthP 0) [i hi ei]; have [le sz] := w; exists (ip_min p + i)%N; rewrite ip_get_in //.
  by rewrite addKn ei.
by move: hi; rewrite sz /ip_size; slia.
Qed.

Lemma ip_inverse_unique p r : ip_wf p -> ip_is_valid p -> ip_wf r -> ip_min r = ip_min p -> ip_max r = ip_max p ->
  (forall i j, ip_get p i = Some j -> ip_get r j = Some i) -> ip_inverse p = Some r.
Proof.
move=> w v wr e1 e2 h; have [q [-> wq q1 q2 q3]] := ip_inverse_ok w v; congr Some.
apply: ip_eq; rewrite ?q1 ?q2 ?e1 ?e2 // => i hi.
have [j e] := ip_valid_surj w v hi; have [j' [_ e' e'']] := q3 _ (ip_get_some e).
by move: e'; rewrite e => -[ej]; rewrite (h _ _ e) ej.
Qed.

Lemma ip_slice_ok p a b : ip_wf p -> ip_min p <= a -> a <= b -> b <= ip_max p ->
  exists q, [/\ ip_slice p a b = Some q, ip_wf q, ip_min q = a, ip_max q = b & forall j, a <= j <= b -> ip_get q j = ip_get p j].
Proof.
move=> [le sz] h1 h2 h3; rewrite /ip_slice h1 h2 h3 /= sz /ip_size.
have -> : b - ip_min p + 1 <= ip_max p - ip_min p + 1 by slia.
have w : ip_wf (IPerm (take (b - a + 1) (drop (a - ip_min p) (ip_contents p))) a b).
  by split=> //=; rewrite size_takel // size_drop sz /ip_size; slia.
eexists; split=> //; move=> j hj; rewrite !ip_get_in //=; last by slia.
by rewrite nth_take ?nth_drop; [congr (Some (nth _ _ _)); slia | slia].
Qed.
