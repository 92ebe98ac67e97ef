(** Changing the claimed values of an accepted opening. *)
From mathcomp Require Import all_ssreflect all_algebra.
From Verif.Model Require Import Base OrderedMap PolysEvaluator Fri Lpc.
From Verif.Spec Require Import LpcSpec.
From Verif.Proofs Require Import NatTac FieldTac PermProofs KzgProofs PackingProofs DomainProofs EvaluatorProofs LpcProofs.
Set Implicit Arguments.
Unset Strict Implicit.
Unset Printing Implicit Defensive.
Import GRing.Theory.
Local Open Scope ring_scope.

Section Forge.
Variable F : fieldType.
Add Field Ff_lpcf : (@ffield_theory F).
Implicit Types (theta c : F) (points : omapT (seq (seq F))) (z : eval_storage F) (id : nat * nat).

Lemma wsumS theta e ids (f : nat * nat -> F) : wsum theta e.+1 ids f = theta * wsum theta e ids f.
Proof. by elim: ids e => [|id ids ih] e /=; rewrite ?mulr0 // ih exprS; fring F. Qed.
Lemma wsum_uniq theta ids (f : nat * nat -> F) : uniq ids -> wsum theta 0 ids f = \sum_(id <- ids) theta ^+ index id ids * f id.
Proof.
elim: ids => [|id ids ih] /=; first by rewrite big_nil.
case/andP=> h1 h2; rewrite big_cons eqxx wsumS ih // big_distrr /=; congr (_ + _); apply: eq_big_seq => id' h.
case: eqP => [e|_]; first by rewrite e h in h1.
by rewrite exprS mulrA.
Qed.
Definition cval points z c id := nth 0 (entry [::] z id) (index c (entry [::] points id)).
Definition readable points z c ids : bool :=
  all (fun id => if om_get2 points id is Some xs then (c \in xs) ==> (if om_get2 z id is Some zs then index c xs < size zs else false)%N
    else false) ids.
Lemma om_get2_entry (A : Type) (d : A) (m : omapT (seq A)) id x : om_get2 m id = Some x -> entry d m id = x.
Proof. by rewrite /om_get2 /entry; case: om_get => [b|] //=; apply: nth_vget. Qed.
Lemma point_group_all points z theta c ids acc : let sel := [seq id <- ids | c \in entry [::] points id] in
  point_group points z theta c ids acc = if readable points z c ids then
    Some (sel, acc * wsum theta 0 sel (cval points z c), acc * theta ^+ size sel) else None.
Proof.
move=> sel; rewrite /point_group -[X in Some (_, X, _)]add0r -[X in Some (X, _, _)]cat0s {}/sel.
move: ([::] : seq (nat * nat)) (0 : F) acc => ids0 u0 acc.
elim: ids ids0 u0 acc => [|id ids ih] ids0 u0 acc /=; first by rewrite cats0 mulr0 addr0 mulr1.
case E1: (om_get2 points id) => [xs|] //=; rewrite (om_get2_entry [::] E1).
case: ifP => hc /=; last by rewrite ih.
case E2: (om_get2 z id) => [zs|] //=; case: ltnP => hs /=; last by rewrite vget_None.
rewrite (vget_nth 0 hs) /= ih; case: ifP => // _; congr Some; congr (_, _, _).
- by rewrite cat_rcons.
- have -> : cval points z c id = nth 0 zs (index c xs) by rewrite /cval (om_get2_entry [::] E1) (om_get2_entry [::] E2).
  by rewrite wsumS expr0; move: (wsum _ _ _ _) (nth _ _ _) => w n; fring F.
- by rewrite exprS mulrA.
Qed.

(** The value number [j] of the polynomial [id] replaced *)
Definition z_set z id (j : nat) (v : F) : eval_storage F :=
  om_set z id.1 (set_nth [::] (odflt [::] (om_get z id.1)) id.2 (set_nth 0 (entry [::] z id) j v)).
Lemma om_keys_set_in (A : Type) (m : omapT A) k x : sorted ltn (om_keys m) -> k \in om_keys m -> om_keys (om_set m k x) = om_keys m.
Proof.
elim: m => [|[k' y] m ih] //= hs; rewrite inE => hk; case: ltngtP => [h|h|->] //=.
- have : k \in k' :: om_keys m by rewrite inE.
  rewrite inE => /orP[/eqP e|hm]; first by rewrite e ltnn in h.
  by move: hs; rewrite path_sortedE; [move=> /andP[/allP /(_ _ hm)]; rewrite /= ltnNge (ltnW h)|exact: ltn_trans].
- rewrite ih //; first exact: path_sorted hs.
  by case/orP: hk => // /eqP e; rewrite e ltnn in h.
Qed.
Section SetValue.
Variables (z : eval_storage F) (id : nat * nat) (j : nat) (v : F).
Hypothesis hs : sorted ltn (om_keys z).
Hypothesis hid : id \in places z.
Hypothesis hj : (j < size (entry [::] z id))%N.
Lemma placesP (A : Type) (m : omapT (seq A)) i : (i \in places m) = (i.1 \in om_keys m) && (i.2 < size (odflt [::] (om_get m i.1)))%N.
Proof.
apply/allpairsPdep/andP => /= [[k [n [h1 h2 ->]]]|[h1 h2]]; first by rewrite mem_iota in h2.
by exists i.1, i.2; rewrite mem_iota; case: i h1 h2.
Qed.
Lemma z_key : id.1 \in om_keys z. Proof. by move: hid; rewrite placesP => /andP[]. Qed.
Lemma z_row : (id.2 < size (odflt [::] (om_get z id.1)))%N. Proof. by move: hid; rewrite placesP => /andP[]. Qed.
Lemma z_set_keys : om_keys (z_set z id j v) = om_keys z. Proof. exact: om_keys_set_in hs z_key. Qed.
Lemma z_set_size k : size (odflt [::] (om_get (z_set z id j v) k)) = size (odflt [::] (om_get z k)).
Proof.
rewrite /z_set om_get_set; case: eqP => [<-|_] //=; rewrite size_set_nth; apply/maxn_idPr; exact: z_row.
Qed.
Lemma z_set_places : places (z_set z id j v) = places z.
Proof. by rewrite /places z_set_keys; congr flatten; apply/eq_map => k; rewrite z_set_size. Qed.
Lemma z_set_entry id' : entry [::] (z_set z id j v) id' = if id' == id then set_nth 0 (entry [::] z id) j v else entry [::] z id'.
Proof.
rewrite /z_set {1}/entry om_get_set; case: eqP => [e1|h1]; last first.
  by case: eqP => [e|] //; rewrite e in h1.
rewrite [odflt _ _]/= nth_set_nth /=; case: eqP => [e2|h2].
  by have -> : id' == id by rewrite -pair_eqE /= e1 e2 !eqxx.
case: eqP => [e|_]; first by rewrite e in h2.
by rewrite /entry e1.
Qed.
Lemma z_set_sizes id' : size (entry [::] (z_set z id j v) id') = size (entry [::] z id').
Proof. by rewrite z_set_entry; case: eqP => [->|] //; rewrite size_set_nth; apply/maxn_idPr. Qed.
Lemma z_set_value id' i : nth 0 (entry [::] (z_set z id j v) id') i = if (id' == id) && (i == j) then v else nth 0 (entry [::] z id') i.
Proof. by rewrite z_set_entry; case: eqP => [->|] //=; rewrite nth_set_nth /=. Qed.
End SetValue.

Lemma om_get2_places (A : Type) (d : A) (m : omapT (seq A)) id : id \in places m -> om_get2 m id = Some (entry d m id).
Proof.
rewrite placesP /om_get2 /entry => /andP[/om_get_someP [b ->]] /= h; exact: vget_nth.
Qed.
Lemma readableE points z c ids : {subset ids <= places z} ->
  readable points z c ids = all (fun id => if om_get2 points id is Some xs then (c \in xs) ==> (index c xs < size (entry [::] z id))%N else false) ids.
Proof. by move=> h; apply: eq_in_all => id hid; rewrite (om_get2_places [::] (h _ hid)). Qed.

Lemma obnd_some (A B : Type) (a : A) (f : A -> option B) : obnd (Some a) f = f a. Proof. by []. Qed.
Lemma eq_in_ofold (A : eqType) (B : Type) (f g : B -> A -> option B) (l : seq A) :
  (forall st a, a \in l -> f st a = g st a) -> forall st, ofold f st l = ofold g st l.
Proof.
elim: l => [|a l ih] h st //=; rewrite h ?mem_head //; case: (g st a) => [st'|] //=; apply: ih => st'' a' ha; apply: h.
by rewrite inE ha orbT.
Qed.
(** The verifier sees only the combinations of the values at each point. *)
Lemma verifier_groups_eq (s : lpc_scheme F) z z' theta : places z' = places z ->
  (forall id, size (entry [::] z' id) = size (entry [::] z id)) ->
  {in get_unique_points (ev_points (ls_ev s)), forall c, let sel := [seq id <- places z | c \in entry [::] (ev_points (ls_ev s)) id] in
    wsum theta 0 sel (cval (ev_points (ls_ev s)) z' c) = wsum theta 0 sel (cval (ev_points (ls_ev s)) z c)} ->
  verifier_groups s z' theta = verifier_groups s z theta.
Proof.
move=> hp hsz hw; rewrite /verifier_groups !z_indicesE hp !obnd_some.
have E : ofold (fun (st : seq (seq (nat * nat)) * seq F * F) point =>
      olet g <- point_group (ev_points (ls_ev s)) z' theta point (places z) st.2;
      Some (rcons st.1.1 g.1.1, rcons st.1.2 g.1.2, g.2)) ([::], [::], 1) (get_unique_points (ev_points (ls_ev s))) =
  ofold (fun (st : seq (seq (nat * nat)) * seq F * F) point =>
      olet g <- point_group (ev_points (ls_ev s)) z theta point (places z) st.2;
      Some (rcons st.1.1 g.1.1, rcons st.1.2 g.1.2, g.2)) ([::], [::], 1) (get_unique_points (ev_points (ls_ev s))).
  apply: eq_in_ofold => st c hc; rewrite !point_group_all hw //.
  have -> // : readable (ev_points (ls_ev s)) z' c (places z) = readable (ev_points (ls_ev s)) z c (places z).
  rewrite !readableE //; last by rewrite hp.
  by apply: eq_in_all => id _; rewrite hsz.
by rewrite E.
Qed.

Lemma unique_points_uniq points : uniq (get_unique_points points).
Proof.
rewrite /get_unique_points; have : uniq ([::] : seq F) by [].
elim: (flatten _) [::] => [|x l ih] r hr //=; apply: ih; case: ifP => // hx; by rewrite rcons_uniq hx hr.
Qed.
Lemma unique_points_mem points c : (c \in get_unique_points points) = (c \in flatten (flatten [seq e.2 | e <- points])).
Proof.
rewrite /get_unique_points -[RHS]orFb -(in_nil c); elim: (flatten _) [::] => [|x l ih] r /=; first by rewrite in_nil orbF.
rewrite ih inE; case: ifP => hx; last by rewrite mem_rcons inE orbA [(c == x) || _]orbC.
by case: eqP => [->|] //=; rewrite hx.
Qed.

Lemma forge (s : lpc_scheme F) z theta c id1 id2 v : sorted ltn (om_keys z) -> theta != 0 -> id1 != id2 ->
  id1 \in places z -> id2 \in places z -> c \in entry [::] (ev_points (ls_ev s)) id1 -> c \in entry [::] (ev_points (ls_ev s)) id2 ->
  isSome (verifier_groups s z theta) ->
  exists z', [/\ cval (ev_points (ls_ev s)) z' c id1 = v,
    om_keys z' = om_keys z /\ (forall k, size (odflt [::] (om_get z' k)) = size (odflt [::] (om_get z k))),
    (forall id, size (entry [::] z' id) = size (entry [::] z id)),
    (forall id j, (id, j) <> (id1, index c (entry [::] (ev_points (ls_ev s)) id1)) ->
       (id, j) <> (id2, index c (entry [::] (ev_points (ls_ev s)) id2)) -> nth 0 (entry [::] z' id) j = nth 0 (entry [::] z id) j) &
    verifier_groups s z' theta = verifier_groups s z theta].
Proof.
set points := ev_points _ => hs ht hne h1 h2 hc1 hc2 hsome.
have hcu : c \in get_unique_points points.
  rewrite unique_points_mem; move: hc1; rewrite /entry; case E: (om_get points id1.1) => [b|] /=; last by rewrite nth_nil.
  move=> hc; apply/flattenP; exists (nth [::] b id1.2) => //; apply/flattenP; exists b.
    move: E; clear; elim: points => [|[k y] m ih] //=; case: eqP => [_ [->]|_ /ih]; rewrite inE ?eqxx // => ->; by rewrite orbT.
  apply: mem_nth; case: ltnP => // hb; by rewrite nth_default in hc.
have hread : readable points z c (places z).
  move: hsome; rewrite /verifier_groups z_indicesE [obnd _ _]/=.
  case E: (ofold _ _ _) => [r|] //= _; move: E hcu; rewrite -/points.
  elim: (get_unique_points points) ([::], [::], 1) => [|c' cs ih] st //=; rewrite point_group_all; case: ifP => //= hr /ih{}ih.
  by rewrite inE => /orP[/eqP ->|].
have hsz id : id \in places z -> c \in entry [::] points id -> (index c (entry [::] points id) < size (entry [::] z id))%N.
  move=> hid hc; move: hread; rewrite readableE // => /allP /(_ _ hid).
  by case E: (om_get2 points id) => [xs|] //; rewrite (om_get2_entry [::] E) in hc *; rewrite hc.
pose sel := [seq id <- places z | c \in entry [::] points id].
have us : uniq sel.
  apply: filter_uniq; apply: allpairs_uniq_dep => [|k _|[k i] [k' i'] _ _ [-> ->]] //; last exact: iota_uniq.
  exact: sorted_uniq ltn_trans ltnn _ hs.
have m1 : id1 \in sel by rewrite mem_filter hc1.
have m2 : id2 \in sel by rewrite mem_filter hc2.
pose j1 := index c (entry [::] points id1); pose j2 := index c (entry [::] points id2).
pose v1 := cval points z c id1.
pose w := cval points z c id2 + theta ^+ index id1 sel * (v1 - v) / theta ^+ index id2 sel.
have q1 : (j1 < size (entry [::] z id1))%N by apply: hsz.
pose z1 := z_set z id1 j1 v.
have hs1 : sorted ltn (om_keys z1) by rewrite z_set_keys.
have p1 : places z1 = places z by apply: z_set_places.
have q2 : (j2 < size (entry [::] z1 id2))%N by rewrite z_set_sizes //; apply: hsz.
have h2' : id2 \in places z1 by rewrite p1.
pose z2 := z_set z1 id2 j2 w.
have val id i : nth 0 (entry [::] z2 id) i = if (id == id2) && (i == j2) then w else if (id == id1) && (i == j1) then v else nth 0 (entry [::] z id) i.
  by rewrite z_set_value // z_set_value.
have sizes id : size (entry [::] z2 id) = size (entry [::] z id) by rewrite z_set_sizes // z_set_sizes.
have other id c' : c' \in entry [::] points id -> (id, c') <> (id1, c) -> (id, c') <> (id2, c) -> cval points z2 c' id = cval points z c' id.
  move=> hc' n1 n2; rewrite /cval val.
  have hidx : index c' (entry [::] points id) = index c (entry [::] points id) -> c' = c \/ c \notin entry [::] points id.
    move=> e; case: (boolP (c \in entry [::] points id)) => hc; [left|by right].
    by rewrite -(nth_index 0 hc') -(nth_index 0 hc) e.
  case: ifP => [/andP[/eqP e1 /eqP e2]|_].
    by subst id; case: (hidx e2) => [e|]; [case: n2; rewrite e|rewrite hc2].
  case: ifP => [/andP[/eqP e1 /eqP e2]|_] //.
  by subst id; case: (hidx e2) => [e|]; [case: n1; rewrite e|rewrite hc1].
have c1 : cval points z2 c id1 = v by rewrite /cval val (negbTE hne) !eqxx.
have c2 : cval points z2 c id2 = w by rewrite /cval val !eqxx.
exists z2; split=> //.
- by rewrite z_set_keys // z_set_keys //; split=> // k; rewrite z_set_size // z_set_size.
- move=> id j n1 n2; rewrite val; case: ifP => [/andP[/eqP e1 /eqP e2]|_]; first by case: n2; rewrite e1 e2.
  by case: ifP => // /andP[/eqP e3 /eqP e4]; case: n1; rewrite e3 e4.
apply: verifier_groups_eq => //; first by rewrite z_set_places // p1.
move=> c' hc' /=; rewrite -/points; case: (c' =P c) => [->|ne].
  have split2 (f : nat * nat -> F) : \sum_(id <- sel) f id = f id1 + (f id2 + \sum_(id <- sel | (id != id1) && (id != id2)) f id).
    rewrite (bigD1_seq id1 m1 us) /= -big_filter (bigD1_seq id2) /=; last exact: filter_uniq.
      by rewrite big_filter_cond.
    by rewrite mem_filter eq_sym hne.
  have rest (z' : eval_storage F) : wsum theta 0 sel (cval points z' c) = theta ^+ index id1 sel * cval points z' c id1 +
      (theta ^+ index id2 sel * cval points z' c id2 + \sum_(id <- sel | (id != id1) && (id != id2)) theta ^+ index id sel * cval points z' c id).
    by rewrite wsum_uniq // split2.
  rewrite -/sel !rest c1 c2 /w -/v1 addrA [RHS]addrA; congr (_ + _); last first.
    rewrite big_seq_cond [RHS]big_seq_cond; apply: eq_bigr => id /andP[hid /andP[n1 n2]]; congr (_ * _).
    apply: other => [|[e]|[e]]; [by move: hid; rewrite mem_filter => /andP[]|by rewrite e eqxx in n1|by rewrite e eqxx in n2].
  have := expf_neq0 (index id2 sel) ht.
  by move: (theta ^+ _) (theta ^+ _) (cval _ _ _ _) => a b x ha; ffield F.
apply: eq_in_wsum => id; rewrite mem_filter => /andP[hc _]; apply: other => // -[_ e]; exact: ne.
Qed.
End Forge.
