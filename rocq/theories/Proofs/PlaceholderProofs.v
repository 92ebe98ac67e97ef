(** Proofs about the Placeholder preprocessor, prover and verifier: registered evaluation points. *)
From Coq Require Import NArith.
From mathcomp Require Import all_ssreflect all_algebra.
From Verif.Model Require Import Base OrderedMap HashMap Domain Expression PlonkVariable PlonkTable CycleRepresentation PolysEvaluator
  PermutationArgument GatesArgument LookupArgument Quotient Placeholder.
From Verif.Proofs Require Import NatTac DomainProofs PermProofs TableProofs KzgProofs EvaluatorProofs MapProofs.
Set Implicit Arguments.
Unset Strict Implicit.
Unset Printing Implicit Defensive.
Import GRing.Theory.
Local Open Scope ring_scope.

(** ** Points *)
Section Points.
Variable F : fieldType.
Implicit Types (ev : evaluator F) (c : point_call F).
(** the points of polynomial [i] of batch [k] *)
Definition batch_points ev (k : nat) : seq (seq F) := odflt [::] (om_get (ev_points ev) k).
Definition call_matches (k i : nat) c : bool := (c.1.1 == k) && (if c.1.2 is Some i' then i' == i else true).
Definition call_points (calls : seq (point_call F)) (k i : nat) : seq F := [seq c.2 | c <- calls & call_matches k i c].
Definition call_ok ev c : bool :=
  [&& odflt false (om_get (ev_locked ev) c.1.1), c.1.1 \in om_keys (ev_points ev) &
      if c.1.2 is Some i then (i < size (batch_points ev c.1.1))%N else true].
Definition with_points ev pts := Evaluator (ev_z ev) (ev_polys ev) (ev_locked ev) pts.

Lemma keys_set (A : Type) (m : omapT A) k x : sorted ltn (om_keys m) -> k \in om_keys m -> om_keys (om_set m k x) = om_keys m.
Proof.
move=> hs hk; apply: keys_eq => //; first exact: sorted_om_set.
by move=> k'; rewrite mem_om_set; case: eqP => [->|].
Qed.
Lemma map_nth_iota (A : Type) (x0 : A) s : [seq nth x0 s i | i <- iota 0 (size s)] = s.
Proof. exact: mkseq_nth. Qed.

Lemma append_point_ok ev c : sorted ltn (om_keys (ev_points ev)) -> call_ok ev c ->
  exists2 pts, append_point ev c = Some (with_points ev pts) &
    om_keys pts = om_keys (ev_points ev) /\
    forall k, odflt [::] (om_get pts k) = [seq nth [::] (batch_points ev k) i ++ call_points [:: c] k i | i <- iota 0 (size (batch_points ev k))].
Proof.
case: ev => z ps lk pt; case: c => [[k0 oi] x] /= hs; rewrite /call_ok /append_point /batch_points /call_points /call_matches /=.
case: oi => [i0|] /and3P[hl hk hi].
  rewrite /append_eval_points_to /= hl (vget_nth [::]) //= /vset hi /=; eexists; first by [].
  split; first exact: keys_set.
  move=> k; rewrite om_get_set; case: (k0 =P k) => [<-|_] /=; last first.
    by rewrite -[LHS](map_nth_iota [::]); apply: eq_map => i; rewrite cats0.
  set b := odflt _ _ in hi *; apply: (@eq_from_nth _ [::]).
    by rewrite size_map size_iota size_cat /= size_take size_drop hi; move: hi; move: (size b); slia.
  move=> i; rewrite size_cat /= size_take size_drop hi => hi'.
  have hib : (i < size b)%N by move: hi hi'; move: (size b); slia.
  rewrite (nth_map 0%N) ?size_iota // nth_iota // add0n nth_cat size_take hi.
  case: (ltngtP i i0) => [h|h|->]; rewrite ?cats0.
  - by rewrite nth_take.
  - by case e : (i - i0)%N => [|j] /=; [move: e h; slia|rewrite nth_drop; congr nth; move: e h; slia].
  - by rewrite subnn.
rewrite /append_eval_points /= hl; eexists; first by [].
split; first exact: keys_set.
move=> k; rewrite om_get_set; case: (k0 =P k) => [<-|_] /=; last first.
  by rewrite -[LHS](map_nth_iota [::]); apply: eq_map => i; rewrite cats0.
by rewrite -[in LHS](map_nth_iota [::] (odflt [::] _)) -map_comp.
Qed.

Lemma call_points_cat cs1 cs2 k i : call_points (cs1 ++ cs2) k i = call_points cs1 k i ++ call_points cs2 k i.
Proof. by rewrite /call_points filter_cat map_cat. Qed.

Lemma append_points_ok ev calls : sorted ltn (om_keys (ev_points ev)) -> all (call_ok ev) calls ->
  exists2 pts, ofold (@append_point F) ev calls = Some (with_points ev pts) &
    om_keys pts = om_keys (ev_points ev) /\
    forall k, odflt [::] (om_get pts k) = [seq nth [::] (batch_points ev k) i ++ call_points calls k i | i <- iota 0 (size (batch_points ev k))].
Proof.
elim: calls ev => [|c calls ih] ev hs /=.
  exists (ev_points ev); first by case: ev hs.
  by split=> // k; rewrite -[LHS](map_nth_iota [::]); apply: eq_map => i; rewrite cats0.
case/andP=> hc hcs; have [pts -> [hk hp]] := append_point_ok hs hc; rewrite /=.
have hs' : sorted ltn (om_keys (ev_points (with_points ev pts))) by rewrite /= hk.
have hcs' : all (call_ok (with_points ev pts)) calls.
  by apply/sub_all: hcs => c'; rewrite /call_ok /= hk /batch_points /= hp size_map size_iota.
have [pts' -> [hk' hp']] := ih (with_points ev pts) hs' hcs'.
exists pts' => //; split; first by rewrite hk'.
move=> k; rewrite hp' /batch_points /= hp size_map size_iota; apply/eq_in_map => i; rewrite mem_iota add0n => /andP[_ hi].
have := call_points_cat [:: c] calls k i; rewrite cat1s => ->.
by rewrite (nth_map 0%N) ?size_iota // nth_iota // add0n catA.
Qed.
End Points.

(** ** Rotations *)
Lemma mem_set_insert r s x : (x \in set_insert r s) = (x == r) || (x \in s).
Proof.
elim: s => //= y s ih; case: ifP => _ //; case: (eqVneq r y) => [->|_]; rewrite !inE ?orbA ?orbb // ih.
by rewrite orbCA orbA.
Qed.
Lemma sorted_set_insert r s : sorted <%R s -> sorted <%R (set_insert r s).
Proof.
elim: s => //= y s ih hs; case: ifP => [h|h] /=; first by rewrite h hs.
case: (eqVneq r y) => [//|hn]; have hyr : y < r by rewrite Order.POrderTheory.lt_neqAle eq_sym hn Order.TotalTheory.leNgt h.
have hs' : sorted <%R s by apply: path_sorted hs.
rewrite /= path_sortedE ?ih ?andbT //; last exact: Order.POrderTheory.lt_trans.
apply/allP => x; rewrite mem_set_insert => /orP[/eqP->//|hx].
by move: hs; rewrite path_sortedE; [move=> /andP[/allP /(_ _ hx)] | exact: Order.POrderTheory.lt_trans].
Qed.

Lemma insert_rotationE result i r result' : insert_rotation result (i, r) = Some result' ->
  [/\ (i < size result)%N, size result' = size result &
      forall j, nth [::] result' j = if j == i then set_insert r (nth [::] result i) else nth [::] result j].
Proof.
rewrite /insert_rotation /=; case: (ltnP i (size result)) => h; last by rewrite vget_None.
rewrite (vget_nth [::]) //=; have [s' [-> hs hn]] := vset_ok [::] (set_insert r (nth [::] result i)) h.
by case=> <-.
Qed.
Lemma insert_rotations result l result' : ofold insert_rotation result l = Some result' ->
  [/\ size result' = size result, all (fun ir => ir.1 < size result)%N l,
      (forall j x, (x \in nth [::] result' j) = (x \in nth [::] result j) || ((j, x) \in l)) &
      (forall j, sorted <%R (nth [::] result j) -> sorted <%R (nth [::] result' j))].
Proof.
elim: l result => [|[i r] l ih] result /=; first by case=> <-; split=> // j x; rewrite orbF.
case e : (insert_rotation result (i, r)) => [r1|] //= /ih[h1 h2 h3 h4]; have [hi hs hn] := insert_rotationE e.
split; first by rewrite h1.
- by rewrite hi; rewrite hs in h2.
- move=> j x; rewrite h3 hn inE xpair_eqE; case: (eqVneq j i) => [->|_] /=; last by [].
  by rewrite mem_set_insert orbA [(x == r) || _]orbC.
- by move=> j hj; apply: h4; rewrite hn; case: ifP => [/eqP ej|//]; apply: sorted_set_insert; rewrite -ej.
Qed.
Lemma insert_rotations_ok result l : all (fun ir => ir.1 < size result)%N l -> exists r, ofold insert_rotation result l = Some r.
Proof.
elim: l result => [|[i r] l ih] result /=; first by exists result.
case/andP=> hi hl; rewrite /insert_rotation /= (vget_nth [::]) //=.
have [s' [-> hs hn]] := vset_ok [::] (set_insert r (nth [::] result i)) hi; rewrite /=.
by apply: ih; rewrite hs.
Qed.
Lemma insert_variablesE d result vs : ofold (insert_variable d) result vs =
  olet l <- omapM (fun v => omap (fun i => (i, pv_rotation v)) (global_index d v)) vs; ofold insert_rotation result l.
Proof.
elim: vs result => //= v vs ih result; rewrite /insert_variable; case: (global_index d v) => //= i.
case e : (insert_rotation _ _) => [r|] /=; last by case: (omapM _ _) => //= l; rewrite e.
by rewrite ih; case: (omapM _ _) => //= l; rewrite e.
Qed.
Lemma mem_indices d vs l v i : omapM (fun v => omap (fun i => (i, pv_rotation v)) (global_index d v)) vs = Some l ->
  v \in vs -> global_index d v = Some i -> (i, pv_rotation v) \in l.
Proof.
elim: vs l => //= u vs ih l; case eu : (global_index d u) => [j|] //=; case e : (omapM _ _) => [l'|] //= [<-].
rewrite !inE => /orP[/eqP->|hv] hi; first by rewrite hi in eu; case: eu => ->; rewrite eqxx.
by rewrite (ih l') // orbT.
Qed.

Section Rotations.
Variables (F : fieldType) (cs : constraint_system F) (d : table_description).
Definition gates_variables := flatten [seq flatten [seq for_each_variable c | c <- g_constraints g] | g <- cs_gates cs].
Definition lookup_variables :=
  flatten [seq flatten [seq flatten [seq for_each_variable e | e <- lc_lookup_input c] | c <- lg_constraints g] | g <- cs_lookup_gates cs].
Definition table_keys :=
  flatten [seq ((td_witness d + td_public_input d + td_constant d + lt_tag_index t)%N, 1 : int) ::
    [seq ((td_witness d + td_public_input d + pv_index v)%N, 1 : int) | v <- flatten (lt_lookup_options t)] | t <- cs_lookup_tables cs].

Lemma columns_rotationsP rs : columns_rotations cs d = Some rs ->
  [/\ size rs = table_width d,
      forall j, (j < table_width d)%N -> sorted <%R (nth [::] rs j) /\ 0 \in nth [::] rs j,
      forall v i, v \in gates_variables -> global_index d v = Some i -> (i < table_width d)%N && (pv_rotation v \in nth [::] rs i) &
      size (cs_lookup_gates cs) != 0%N ->
        (forall v i, v \in lookup_variables -> global_index d v = Some i -> (i < table_width d)%N && (pv_rotation v \in nth [::] rs i)) /\
        (forall i r, (i, r) \in table_keys -> (i < table_width d)%N && (r \in nth [::] rs i))].
Proof.
rewrite /columns_rotations -/gates_variables -/lookup_variables -/table_keys.
set r0 := nseq _ _; have hr0 : size r0 = table_width d by rewrite size_nseq.
case e1 : (ofold _ r0 _) => [r1|] //=; move: e1; rewrite insert_variablesE; case el1 : (omapM _ _) => [l1|] //= e1.
have [s1 a1 m1 o1] := insert_rotations e1.
have base j : (j < table_width d)%N -> sorted <%R (nth [::] r1 j) /\ 0 \in nth [::] r1 j.
  by move=> hj; split; [apply: o1; rewrite nth_nseq hj|rewrite m1 nth_nseq hj mem_head].
have gv v i : v \in gates_variables -> global_index d v = Some i -> (i < table_width d)%N && (pv_rotation v \in nth [::] r1 i).
  move=> hv hi; have hm := mem_indices el1 hv hi.
  by rewrite m1 hm orbT andbT -hr0; apply: (allP a1 _ hm).
case: ifP => hl; last by case=> <-; split=> //; rewrite s1.
case e2 : (ofold _ r1 _) => [r2|] //=; move: e2; rewrite insert_variablesE; case el2 : (omapM _ _) => [l2|] //= e2.
have [s2 a2 m2 o2] := insert_rotations e2 => e3; have [s3 a3 m3 o3] := insert_rotations e3.
split; first by rewrite s3 s2 s1.
- by move=> j /base[h1 h2]; split; [apply/o3/o2|rewrite m3 m2 h2].
- by move=> v i hv hi; case/andP: (gv v i hv hi) => -> h; rewrite m3 m2 h.
move=> _; split=> [v i hv hi|i r hm].
  have hm := mem_indices el2 hv hi; rewrite m3 m2 hm orbT orTb andbT -hr0 -s1; exact: (allP a2 _ hm).
by rewrite m3 hm orbT andbT -hr0 -s1 -s2; apply: (allP a3 _ hm).
Qed.
End Rotations.

(** ** The evaluation map of the verifier *)
Section Map.
Variable F : fieldType.
Implicit Types (z : eval_storage F) (m : evaluation_map F) (rs : seq int).
Notation find := (hm_find (@eq_op [eqType of evaluation_key])).

Lemma ofold_isSome (A : eqType) (C : Type) (f : C -> A -> option C) (s : seq A) c :
  (forall x c, x \in s -> isSome (f c x)) -> exists r, ofold f c s = Some r.
Proof.
elim: s c => [|x s ih] c h /=; first by exists c.
have := h x c (mem_head _ _); case: (f c x) => //= c' _; apply: ih => y c'' hy; apply: h.
by rewrite inE hy orbT.
Qed.
Lemma find_setE m k x k' : find (hm_set (@eq_op [eqType of evaluation_key]) m k x) k' = if k == k' then Some x else find m k'.
Proof.
by rewrite hm_find_set // => a b c /eqP-> /eqP->.
Qed.

Lemma add_column_at z k pi i ct rs j0 m m' : uniq rs ->
  ofold (fun m (jr : nat * int) => olet x <- z_get z k pi jr.1; Some (hm_set (@eq_op [eqType of evaluation_key]) m (i, jr.2, ct) x)) m
    (zip (iota j0 (size rs)) rs) = Some m' ->
  forall key : evaluation_key, find m' key =
    if [&& key.1.1 == i, key.2 == ct & key.1.2 \in rs] then z_get z k pi (j0 + index key.1.2 rs) else find m key.
Proof.
elim: rs j0 m => [|r rs ih] j0 m /=; first by move=> _ [<-] key; rewrite !andbF.
case/andP=> hr hu; case e : (z_get z k pi j0) => [x|] //= h key; rewrite (ih _ _ hu h) find_setE inE.
case: key => [[i' r'] ct'] /=; rewrite !xpair_eqE [i == i']eq_sym [ct == ct']eq_sym [r == r']eq_sym.
case: (i' =P i) => // _; case: (ct' =P ct) => [->|_] //=; last by rewrite andbF.
case: (r' =P r) => [->|_] /=; first by rewrite (negbTE hr) addn0 e.
by case: (r' \in rs); rewrite ?addSnnS.
Qed.
Lemma add_columnP z k pi i ct rs m m' : uniq rs -> add_column z k pi i ct rs m = Some m' ->
  forall key : evaluation_key, find m' key =
    if [&& key.1.1 == i, key.2 == ct & key.1.2 \in rs] then z_get z k pi (index key.1.2 rs) else find m key.
Proof. by move=> hu h key; rewrite (add_column_at hu h). Qed.

Lemma add_columnsP z rots k offset global ct n m m' : (forall j, uniq (nth [::] rots j)) ->
  add_columns z rots k offset global ct n m = Some m' ->
  forall key : evaluation_key, find m' key =
    if [&& (key.1.1 < n)%N, key.2 == ct & key.1.2 \in nth [::] rots (global + key.1.1)]
    then z_get z k (offset + key.1.1) (index key.1.2 (nth [::] rots (global + key.1.1))) else find m key.
Proof.
move=> hu; rewrite /add_columns.
suff H s m0 m1 : ofold (fun m i => olet rs <- vget rots (global + i)%N; add_column z k (offset + i)%N i ct rs m) m0 (iota s n) = Some m1 ->
  forall key : evaluation_key, find m1 key =
    if [&& (s <= key.1.1 < s + n)%N, key.2 == ct & key.1.2 \in nth [::] rots (global + key.1.1)]
    then z_get z k (offset + key.1.1) (index key.1.2 (nth [::] rots (global + key.1.1))) else find m0 key.
  by move=> /H h key; rewrite h.
elim: n s m0 => [|n ih] s m0 /=; first by case=> <- key; rewrite addn0 leqNgt andNb.
case: (ltnP (global + s) (size rots)) => hs; last by rewrite vget_None.
rewrite (vget_nth [::]) //=; case e : (add_column _ _ _ _ _ _ _) => [m2|] //= /ih h key.
rewrite h (add_columnP (hu _) e); case: key => [[i' r'] ct'] /=.
rewrite addnS -addSn; case: (ltngtP s i') => hi /=.
- by [].
- by [].
- by rewrite -hi leq_addr.
Qed.

(** where the opened values of a column are: batch, polynomial, global index *)
Definition column_place (d : table_description) (permutation_size : nat) (ct : column_type) (i : nat) : option (nat * nat * nat) :=
  match ct with
  | CWitness => if (i < td_witness d)%N then Some (VARIABLE_VALUES_BATCH, i, i) else None
  | CPublicInput => if (i < td_public_input d)%N then Some (VARIABLE_VALUES_BATCH, td_witness d + i, td_witness d + i)%N else None
  | CConstant => if (i < td_constant d)%N then
      Some (FIXED_VALUES_BATCH, permutation_size * 2 + 2 + i, td_witness d + td_public_input d + i)%N else None
  | CSelector => if (i < td_selector d)%N then
      Some (FIXED_VALUES_BATCH, permutation_size * 2 + 2 + td_constant d + i, td_witness d + td_public_input d + td_constant d + i)%N else None
  | CUninitialized => None
  end.
Lemma columns_at_yP z rots d permutation_size m : (forall j, uniq (nth [::] rots j)) -> columns_at_y z rots d permutation_size = Some m ->
  forall (i : nat) (r : int) ct, find m (i, r, ct) =
    olet p <- column_place d permutation_size ct i;
    let: (k, pi, g) := p in
    oguard r \in nth [::] rots g; z_get z k pi (index r (nth [::] rots g)).
Proof.
move=> hu; rewrite /columns_at_y.
case e1 : (add_columns _ _ _ _ _ _ _ _) => [m1|] //=; case e2 : (add_columns _ _ _ _ _ _ _ _) => [m2|] //=.
case e3 : (add_columns _ _ _ _ _ _ _ _) => [m3|] //= e4 i r ct.
rewrite (add_columnsP hu e4) (add_columnsP hu e3) (add_columnsP hu e2) (add_columnsP hu e1) /=.
by case: ct; rewrite /= ?andbF //; case: ltnP.
Qed.
Lemma columns_at_y_ok z rots d permutation_size : (table_width d <= size rots)%N ->
  (forall k pi g ct i j, column_place d permutation_size ct i = Some (k, pi, g) -> (j < size (nth [::] rots g))%N -> isSome (z_get z k pi j)) ->
  exists m, columns_at_y z rots d permutation_size = Some m.
Proof.
move=> hs hz.
have H k offset global ct n m : (global + n <= size rots)%N ->
  (forall i j, (i < n)%N -> (j < size (nth [::] rots (global + i)))%N -> isSome (z_get z k (offset + i) j)) ->
  exists m', add_columns z rots k offset global ct n m = Some m'.
  move=> hn h; apply: ofold_isSome => i m0; rewrite mem_iota add0n => /andP[_ hi].
  have hg : (global + i < size rots)%N by move: hn hi; slia.
  rewrite (vget_nth [::]) //= /add_column.
  have [|r -> //] := @ofold_isSome _ _ (fun m (jr : nat * int) => olet x <- z_get z k (offset + i) jr.1; Some (hm_set (@eq_op [eqType of evaluation_key]) m (i, jr.2, ct) x))
    (zip (iota 0 (size (nth [::] rots (global + i)))) (nth [::] rots (global + i))) m0.
  move=> [j r] m1 hjr; have : j \in unzip1 (zip (iota 0 (size (nth [::] rots (global + i)))) (nth [::] rots (global + i))) by apply/mapP; exists (j, r).
  rewrite unzip1_zip ?size_iota // mem_iota add0n => /andP[_ hj].
  by have := h i j hi hj; case: (z_get _ _ _ _).
move: hs; rewrite /table_width => hs; rewrite /columns_at_y.
have [||m1 ->] /= := H VARIABLE_VALUES_BATCH 0%N 0%N CWitness (td_witness d) [::]; first by move: hs; slia.
  by move=> i j hi hj; apply: (hz _ _ i CWitness i) => //=; rewrite hi.
have [||m2 ->] /= := H VARIABLE_VALUES_BATCH (td_witness d) (td_witness d) CPublicInput (td_public_input d) m1; first by move: hs; slia.
  by move=> i j hi hj; apply: (hz _ _ (td_witness d + i)%N CPublicInput i) => //=; rewrite hi.
have [||m3 ->] /= := H FIXED_VALUES_BATCH (permutation_size * 2 + 2)%N (td_witness d + td_public_input d)%N CConstant (td_constant d) m2; first by move: hs; slia.
  by move=> i j hi hj; apply: (hz _ _ (td_witness d + td_public_input d + i)%N CConstant i) => //=; rewrite hi.
apply: H; first by move: hs; slia.
by move=> i j hi hj; apply: (hz _ _ (td_witness d + td_public_input d + td_constant d + i)%N CSelector i) => //=; rewrite hi.
Qed.
End Map.

(** ** The calls of [generate_evaluation_points] *)
Section Calls.
Variables (F : fieldType) (omega : F).
Lemma call_points_rotations y b i rs k j :
  call_points (rotation_calls omega y b i rs) k j = if (b == k) && (i == j) then [seq y * omega ^ r | r <- rs] else [::].
Proof.
rewrite /call_points /call_matches; elim: rs => [|r rs ih] /=; first by case: ifP.
by case: ifP ih => /= _ ih; rewrite -/(rotation_calls _ _ _ _ _) ih.
Qed.
Lemma call_points_columns y b o (f : nat -> seq int) s n k j :
  call_points (flatten [seq rotation_calls omega y b (o + i) (f i) | i <- iota s n]) k j =
  if (b == k) && (o + s <= j < o + (s + n))%N then [seq y * omega ^ r | r <- f (j - o)%N] else [::].
Proof.
elim: n s => [|n ih] s /=; first by rewrite addn0 andbC; case: leqP => // h; rewrite ltnNge h.
rewrite call_points_cat call_points_rotations ih; case: (b == k) => //=.
rewrite [(o + s.+1)%N]addnS addSn [(s + n.+1)%N]addnS; case: (ltngtP (o + s) j) => h /=; rewrite ?cats0 //.
by rewrite -h addKn addnS ltnS leq_add2l leq_addr.
Qed.
Lemma call_points_each y b n k j : call_points [seq (b, Some i, y) | i <- iota 0 n] k j = (if (b == k) && (j < n)%N then [:: y] else [::] : seq F).
Proof.
suff H s : call_points [seq (b, Some i, y) | i <- iota s n] k j = (if (b == k) && (s <= j < s + n)%N then [:: y] else [::]) by rewrite H.
elim: n s => [|n ih] s /=; first by rewrite addn0 andbC; case: leqP => // h; rewrite ltnNge h.
have := call_points_cat [:: (b, Some s, y)] [seq (b, Some i, y) | i <- iota s.+1 n] k j; rewrite cat1s => ->.
rewrite ih /call_points /call_matches /=; case: (b == k) => //=.
by rewrite addnS addSn; case: ltngtP => h //=; rewrite -h leq_addr.
Qed.

Variables (C H D : Type) (cd : common_data C H D) (cs : constraint_system F) (d : table_description) (start selectors : nat) (y : F).
Notation rots := (cd_columns_rotations cd).
Notation copy := (size (cs_copy_constraints cs) != 0%N).
Notation lookup := (size (cs_lookup_gates cs) != 0%N).
(** The points of each polynomial, in the order in which they are registered *)
Definition expected_points (k i : nat) : seq F :=
  let variables := (td_witness d + td_public_input d)%N in
  if k == FIXED_VALUES_BATCH then
    if (i < start - 2)%N then [:: y] else
    if (i < start)%N then [:: y; y * omega] else
    if (i < start + (td_constant d + selectors))%N then [seq y * omega ^ r | r <- nth [::] rots (variables + (i - start))] else [::]
  else if k == VARIABLE_VALUES_BATCH then
    if (i < variables)%N then [seq y * omega ^ r | r <- nth [::] rots i] else [::]
  else if k == PERMUTATION_BATCH then
    if copy || lookup then y :: (if copy && (i == 0%N) then [:: y * omega] else [::]) ++
      (if lookup && (i == cd_permutation_parts cd) then [:: y * omega] else [::]) else [::]
  else if k == QUOTIENT_BATCH then [:: y]
  else if k == LOOKUP_BATCH then if lookup then [:: y; y * omega; y * omega ^+ td_usable_rows (cd_desc cd)] else [::]
  else [::].

Lemma evaluation_callsE calls : evaluation_calls omega cd cs d start selectors y = Some calls ->
  calls = flatten [seq rotation_calls omega y VARIABLE_VALUES_BATCH (0 + i) (nth [::] rots i) | i <- iota 0 (td_witness d + td_public_input d)] ++
    (if lookup || copy then [:: (PERMUTATION_BATCH, None, y)] else [::]) ++
    (if copy then [:: (PERMUTATION_BATCH, Some 0%N, y * omega)] else [::]) ++
    (if lookup then [:: (PERMUTATION_BATCH, Some (cd_permutation_parts cd), y * omega); (LOOKUP_BATCH, None, y);
        (LOOKUP_BATCH, None, y * omega); (LOOKUP_BATCH, None, y * omega ^+ td_usable_rows (cd_desc cd))] else [::]) ++
    [:: (QUOTIENT_BATCH, None, y)] ++
    [seq (FIXED_VALUES_BATCH, Some i, y) | i <- iota 0 start] ++
    [:: (FIXED_VALUES_BATCH, Some (start - 2)%N, y * omega); (FIXED_VALUES_BATCH, Some (start - 1)%N, y * omega)] ++
    flatten [seq rotation_calls omega y FIXED_VALUES_BATCH (start + i) (nth [::] rots (td_witness d + td_public_input d + i)) | i <- iota 0 (td_constant d + selectors)].
Proof.
have HH (g : nat -> nat) (f : nat -> seq int -> seq (point_call F)) s r : omapM (fun i => omap (f i) (vget rots (g i))) s = Some r ->
  r = [seq f i (nth [::] rots (g i)) | i <- s].
  elim: s r => [|i s ih] r /=; first by case.
  case: (ltnP (g i) (size rots)) => h; last by rewrite vget_None.
  by rewrite (vget_nth [::]) //=; case e : (omapM _ s) => [r'|] //= [<-]; rewrite (ih _ e).
rewrite /evaluation_calls; case e1 : (omapM _ _) => [vs|] //=; case e2 : (omapM _ _) => [fs|] //= [<-].
by rewrite (HH id _ _ _ e1) (HH (fun i => td_witness d + td_public_input d + i)%N _ _ _ e2).
Qed.
Lemma evaluation_calls_ok : (td_witness d + td_public_input d + (td_constant d + selectors) <= size rots)%N ->
  exists calls, evaluation_calls omega cd cs d start selectors y = Some calls.
Proof.
move=> h; rewrite /evaluation_calls.
rewrite (@omapM_some _ _ _ (fun i => rotation_calls omega y VARIABLE_VALUES_BATCH i (nth [::] rots i))); last first.
  by move=> i; rewrite mem_iota add0n => /andP[_ hi]; rewrite (vget_nth [::]) //; move: h hi; slia.
rewrite (@omapM_some _ _ _ (fun i => rotation_calls omega y FIXED_VALUES_BATCH (start + i) (nth [::] rots (td_witness d + td_public_input d + i)))); last first.
  by move=> i; rewrite mem_iota add0n => /andP[_ hi]; rewrite (vget_nth [::]) //; move: h hi; slia.
by eexists.
Qed.
Lemma calls_expected calls : evaluation_calls omega cd cs d start selectors y = Some calls -> (1 < start)%N ->
  forall k i, call_points calls k i = expected_points k i.
Proof.
move=> /evaluation_callsE -> hst k i; rewrite !call_points_cat !call_points_columns call_points_each.
rewrite /expected_points /FIXED_VALUES_BATCH /VARIABLE_VALUES_BATCH /PERMUTATION_BATCH /QUOTIENT_BATCH /LOOKUP_BATCH.
case: k => [|[|[|[|[|k]]]]].
- rewrite /= [call_points (if lookup || copy then _ else _) _ _](_ : _ = [::]); last by case: ifP.
  rewrite [call_points (if copy then _ else _) _ _](_ : _ = [::]); last by case: ifP.
  rewrite [call_points (if lookup then _ else _) _ _](_ : _ = [::]); last by case: ifP.
  rewrite /= addn0; rewrite /call_points /call_matches /=.
  have [[h1 h2 e1 e2]|[[h1 h2 e1 e2]|[[h1 h2 e1 e2]|[h1 h2 e1 e2]]]] :
    [/\ (i < start - 2)%N, (i < start)%N, (start - 2 == i)%N = false & (start - 1 == i)%N = false] \/
    ([/\ (i < start - 2)%N = false, (i < start)%N, (start - 2 == i)%N & (start - 1 == i)%N = false] \/
    ([/\ (i < start - 2)%N = false, (i < start)%N, (start - 2 == i)%N = false & (start - 1 == i)%N] \/
    [/\ (i < start - 2)%N = false, (i < start)%N = false, (start - 2 == i)%N = false & (start - 1 == i)%N = false])).
  + move: hst; case: (ltnP i (start - 2)) => h1 hst; first by left; split=> //; move: h1 hst; slia.
    right; case: (ltnP i start) => h2; last by right; right; split=> //; move: h1 h2 hst; slia.
    case: (eqVneq (start - 2)%N i) => h3; first by left; split=> //; move: h3 hst; slia.
    by right; left; split=> //; move: h1 h2 h3 hst; slia.
  + by rewrite e1 e2 h1 h2 leqNgt h2.
  + by rewrite e1 e2 h1 h2 leqNgt h2.
  + by rewrite e1 e2 h1 h2 leqNgt h2.
  + by rewrite e1 e2 h1 h2 leqNgt h2.
- by rewrite /= !add0n subn0; case: ifP => _; case: copy; case: lookup; rewrite /call_points /= ?cats0.
- by rewrite /=; case: copy; case: lookup => //=; rewrite /call_points /call_matches /= ?(eq_sym 0%N) ?(eq_sym (cd_permutation_parts cd)); case: ifP => // _; case: ifP.
- by rewrite /=; case: copy; case: lookup.
- by rewrite /=; case: copy; case: lookup.
- by rewrite /=; case: copy; case: lookup.
Qed.
End Calls.
