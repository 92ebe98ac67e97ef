From Coq Require Import String.
From mathcomp Require Import all_ssreflect all_algebra.
From Verif.Model Require Import Base OrderedMap Expression PlonkVariable PlonkTable GatesArgument LookupArgument LookupPacking.
From Verif.Spec Require Import PackingSpec.
From Verif.Proofs Require Import NatTac PermProofs TableProofs KzgProofs PlaceholderRun.
Set Implicit Arguments.
Unset Strict Implicit.
Unset Printing Implicit Defensive.
Import GRing.Theory.
Local Open Scope ring_scope.

Section Vec.
Variable T : Type.
Implicit Types (s : seq T) (x : T).

Lemma vget_some s i x : vget s i = Some x -> (i < size s)%N.
Proof. by elim: s i => [|y s IH] [|i] //= /IH. Qed.
Lemma vget_lt s i : (i < size s)%N -> exists x, vget s i = Some x.
Proof. by elim: s i => [|y s IH] [|i] //=; [exists y|move/IH]. Qed.
Lemma vset_get s i x s' : vset s i x = Some s' -> size s' = size s /\ forall j, vget s' j = if j == i then Some x else vget s j.
Proof.
rewrite /vset; case: ltnP => // hi [<-]; split=> [|j].
  by rewrite size_cat /= size_takel ?size_drop 1?ltnW // addnS -addSn subnKC.
elim: s i j hi => [|y s IH] [|i] [|j] //= hi; first by rewrite drop0.
by rewrite eqSS IH.
Qed.
Lemma vset_lt s i x : (i < size s)%N -> exists s', vset s i x = Some s'.
Proof. by rewrite /vset => ->; eexists. Qed.
Lemma vget_nseq n x i : vget (nseq n x) i = if (i < n)%N then Some x else None.
Proof. by elim: n i => [|n IH] [|i] //=; rewrite IH. Qed.
Lemma vget_vresize s n x i : vget (vresize s n x) i = if (i < n)%N then (if (i < size s)%N then vget s i else Some x) else None.
Proof.
elim: s n i => [|y s IH] n i /=; first by rewrite /vresize /= subn0 vget_nseq.
case: n i => [|n] [|i] //=; first by rewrite -[RHS]IH.
Qed.
Lemma nth_vget x0 s i x : vget s i = Some x -> nth x0 s i = x.
Proof. by elim: s i => [|y s IH] [|i] //=; [case|exact: IH]. Qed.
Lemma vget_none s i : vget s i = None -> (size s <= i)%N.
Proof. by elim: s i => [|y s IH] [|i] //= /IH. Qed.

(** loops over [0 .. size) with an index *)
Lemma ofold_rcons (A B : Type) (f : B -> A -> option B) acc l a :
  ofold f acc (rcons l a) = obnd (ofold f acc l) (fun b => f b a).
Proof. by elim: l acc => [|y l IH] acc /=; [case: (f acc a)|case: (f acc y)]. Qed.
End Vec.

(** Inversion of a loop with an invariant on the processed prefix. *)
Lemma ofold_inv (A B : Type) (f : B -> A -> option B) (P : seq A -> B -> Prop) acc l b :
  P [::] acc -> (forall p a b b', P p b -> f b a = Some b' -> P (rcons p a) b') -> ofold f acc l = Some b -> P l b.
Proof.
move=> h0 hs; elim/last_ind: l b => [|l a IH] b; first by case=> <-.
by rewrite ofold_rcons; case E : (ofold f acc l) => [b'|] //= /hs; apply; exact: IH.
Qed.
Lemma ofold_inv_in (A B : Type) (f : B -> A -> option B) (P : seq A -> B -> Prop) acc l b :
  P [::] acc -> (forall p a q b b', l = p ++ a :: q -> P p b -> f b a = Some b' -> P (rcons p a) b') -> ofold f acc l = Some b -> P l b.
Proof.
move=> h0 hs hl; suff: forall p q b, l = p ++ q -> ofold f acc p = Some b -> P p b by move/(_ l [::] b); rewrite cats0; apply.
elim/last_ind=> [|p a IH] q b' E; first by case=> <-.
rewrite ofold_rcons; case E' : (ofold f acc p) => [b''|] //=.
rewrite cat_rcons in E; move/(hs _ _ _ _ _ E); apply; exact: (IH (a :: q)).
Qed.
(** A loop succeeds if its body succeeds from every state that satisfies the invariant. *)
Lemma ofold_ok (A B : Type) (f : B -> A -> option B) (P : seq A -> B -> Prop) acc l :
  P [::] acc -> (forall p a q b, l = p ++ a :: q -> P p b -> exists2 b', f b a = Some b' & P (rcons p a) b') ->
  exists2 b, ofold f acc l = Some b & P l b.
Proof.
move=> h0 hs; suff: forall p q, l = p ++ q -> exists2 b, ofold f acc p = Some b & P p b by move/(_ l [::]); rewrite cats0; apply.
elim/last_ind=> [|p a IH] q E; first by exists acc.
rewrite ofold_rcons; case: (IH (a :: q)); first by rewrite E cat_rcons.
move=> b hb /= /(hs p a q); rewrite -cat_rcons => /(_ E)[b' h1 h2]; exists b' => //; by rewrite hb.
Qed.

Lemma between_S a j n : j != (a + n)%N -> (a <= j < a + n.+1)%N = (a <= j < a + n)%N.
Proof. by move=> h; rewrite addnS ltnS [(j <= _)%N]leq_eqVlt (negbTE h). Qed.

Section Packing.
Variable F : fieldType.
Implicit Types (c xs : seq F) (cols : seq (seq F)).

Lemma write_fromP c start xs c' : write_from c start xs = Some c' ->
  size c' = size c /\ forall j, vget c' j = if (start <= j < start + size xs)%N then vget xs (j - start) else vget c j.
Proof.
rewrite /write_from; elim/last_ind: xs c' => [|xs x IH] c'.
  by case=> <-; split=> // j; rewrite addn0; case: ltnP => // h; rewrite ltnNge h.
rewrite size_rcons -addn1 iotaD add0n cats1 zip_rcons ?size_iota // ofold_rcons.
case E : (ofold _ _ _) => [c''|] //= h; have [s1 g1] := IH _ E; have [s2 g2] := vset_get h.
split=> [|j]; first by rewrite s2 s1.
rewrite g2 g1; case: eqP => [->|/eqP hj].
  by rewrite leq_addr addKn ltn_add2l addn1 ltnSn /= -cats1 vget_cat ltnn subnn.
rewrite addn1 between_S //.
by case: ifP => // /andP[h1 h2]; rewrite -cats1 vget_cat ltn_subLR // h2.
Qed.
Lemma write_from_ok c start xs : (start + size xs <= size c)%N -> exists c', write_from c start xs = Some c'.
Proof.
rewrite /write_from; elim/last_ind: xs => [|xs x IH] hs; first by exists c.
rewrite size_rcons -addn1 iotaD add0n cats1 zip_rcons ?size_iota // ofold_rcons.
case: IH => [|c' E]; first by move: hs; rewrite size_rcons; slia.
rewrite E /=; apply: vset_lt; case: (write_fromP E) => -> _; by move: hs; rewrite size_rcons; slia.
Qed.

(** Cell [j] of column [i] *)
Definition cell cols i j : option F := olet c <- vget cols i; vget c j.

(** All columns have at most [u] cells *)
Definition fits cols u := forall i c, vget cols i = Some c -> (size c <= u)%N.

Lemma place_columnP sc sr cols u i xs cols' u' : place_column sc sr (cols, u) (i, xs) = Some (cols', u') ->
  [/\ size cols' = size cols, (u <= u')%N, fits cols u -> fits cols' u' /\ (sr + size xs <= u')%N,
      forall j, (j < size xs)%N -> cell cols' (sc + i) (sr + j) = vget xs j &
      forall k j x, cell cols k j = Some x -> ~~ ((k == sc + i)%N && (sr <= j < sr + size xs)%N) -> cell cols' k j = Some x] /\
  (forall k, (forall x, cell cols k 0 = Some x -> x = 0) -> (0 < sr)%N -> forall x, cell cols' k 0 = Some x -> x = 0).
Proof.
rewrite /place_column /cell; case hc : (vget cols _) => [c|] //=.
set cu := if _ then _ else _; have [c1 [u1 [E [h1 h2 h3 h4 h5]]]] : exists c1 u1, cu = (c1, u1) /\
  [/\ (sr + size xs <= size c1)%N, (u <= u1)%N, fits cols u -> (sr + size xs <= u1)%N /\ (size c1 <= u1)%N,
      forall j x, vget c j = Some x -> vget c1 j = Some x &
      forall j x, vget c1 j = Some x -> vget c j = Some x \/ x = 0].
  rewrite /cu; case: ltnP => h; do 2 eexists; split; [by []| |by []|].
    rewrite size_vresize; split=> // [|_|j x|j x].
    - by case: ltnP => // /ltnW.
    - by case: ltnP.
    - by rewrite vget_vresize => e; have hj := vget_some e; rewrite hj (ltn_trans hj h).
    - by rewrite vget_vresize; case: ltnP => // _; case: ltnP => // _; [left|case=> ->; right].
  by split=> // [hf|j x]; [have h' := hf _ _ hc; split=> //; exact: leq_trans h h'|left].
rewrite E; case hw : (write_from c1 sr xs) => [c2|] //=; case hv : (vset cols _ c2) => [cols2|] //= [<- <-].
have [s2 g2] := write_fromP hw; have [s3 g3] := vset_get hv.
split; last first.
  move=> k hk sr0 x; rewrite g3; case: eqP => [ek|_]; last exact: hk.
  by rewrite /= g2 leqNgt sr0 /= => /h5[e|//]; apply: hk; rewrite ek hc.
split=> // [hf|j hj|k j x].
- have [q1 q2] := h3 hf; split=> // k d; rewrite g3; case: eqP => [_ [<-]|_ /hf hd]; first by rewrite s2.
  exact: leq_trans hd h2.
- by rewrite g3 eqxx /= g2 leq_addr ltn_add2l hj /= addKn.
rewrite g3; case: (k =P _) => [->|] //=; rewrite hc /= => /h4 e; rewrite g2 => /negbTE ->; exact: e.
Qed.

Lemma place_tableP sc sr cols u t cols' u' : place_table sc sr (cols, u) t = Some (cols', u') ->
  [/\ size cols' = size cols, (u <= u')%N,
      fits cols u -> fits cols' u' /\ forall i c, vget t i = Some c -> (sr + size c <= u')%N,
      forall i j c, vget t i = Some c -> (j < size c)%N -> cell cols' (sc + i) (sr + j) = vget c j &
      forall k j x, cell cols k j = Some x -> (k < sc)%N || (j < sr)%N || (sc + size t <= k)%N -> cell cols' k j = Some x] /\
  (forall k, (forall x, cell cols k 0 = Some x -> x = 0) -> (0 < sr)%N -> forall x, cell cols' k 0 = Some x -> x = 0).
Proof.
rewrite /place_table; elim/last_ind: t cols' u' => [|t xs IH] cols' u'.
  by case=> <- <-; split; [split=> // hf; split|].
rewrite size_rcons -addn1 iotaD add0n cats1 zip_rcons ?size_iota // ofold_rcons.
case E : (ofold _ _ _) => [[cols1 u1]|] //= /place_columnP[[p1 p2 p3 p4 p5] p6]; have [[q1 q2 q3 q4 q5] q6] := IH _ _ E.
have hrc i c : vget (rcons t xs) i = Some c -> vget t i = Some c /\ (i < size t)%N \/ i = size t /\ c = xs.
  rewrite -cats1 vget_cat; case: ltnP => h; first by left.
  case: (i - size t)%N (subnK h) => [|n] /=; last by case: n.
  by rewrite add0n => -> [->]; right.
split; last by move=> k /q6 hk sr0; apply: p6 => //; exact: hk.
split; [by rewrite p1|exact: leq_trans q2 p2| | |].
- move=> /q3[f1 g1]; have [f2 g2] := p3 f1; split=> // i c /hrc[[/g1 h _]|[_ ->] //]; exact: leq_trans h p2.
- move=> i j c /hrc[[h hi]|[-> ->]] hj; last exact: p4.
  have [x hx] := vget_lt hj; rewrite hx; apply: p5; first by rewrite (q4 _ _ _ h hj).
  by rewrite eqn_add2l (ltn_eqF hi).
move=> k j x h /orP[/orP[hk|hk]|hk]; apply: p5.
- by apply: q5; rewrite ?hk.
- by rewrite (ltn_eqF (leq_trans hk (leq_addr _ _))).
- by apply: q5; rewrite ?hk ?orbT.
- by rewrite leqNgt hk andbF.
- by apply: q5; rewrite // (leq_trans _ hk) ?orbT // leq_add2l leq_addr.
by rewrite gtn_eqF // (leq_trans _ hk) // addn1 addnS.
Qed.
Lemma place_table_ok sc sr cols u t : (sc + size t <= size cols)%N -> exists r, place_table sc sr (cols, u) t = Some r.
Proof.
move=> hs; suff [b hb _] : exists2 b, place_table sc sr (cols, u) t = Some b & size b.1 = size cols by exists b.
rewrite /place_table; pose P (p : seq (nat * seq F)) (b : seq (seq F) * nat) := size b.1 = size cols.
apply: (@ofold_ok _ _ _ P) => // p [i xs] q [c1 u1] E hp.
have hi : (i < size t)%N.
  have : (i, xs).1 \in [seq e.1 | e <- zip (iota 0 (size t)) t] by rewrite E map_cat /= mem_cat inE eqxx orbT.
  by rewrite -/(unzip1 _) unzip1_zip ?size_iota // mem_iota.
rewrite /P /= in hp.
have [c hc] : exists c, vget c1 (sc + i)%N = Some c by apply: vget_lt; rewrite hp; slia.
rewrite /place_column hc /=; set cu := if _ then _ else _.
have [c2 [u2 [e h]]] : exists c2 u2, cu = (c2, u2) /\ (sr + size xs <= size c2)%N.
  by rewrite /cu; case: ltnP => h; do 2 eexists; (split; [reflexivity|rewrite ?size_vresize]).
rewrite e; have [c3 ->] := write_from_ok h; rewrite /=.
have [cols4 h4] : exists cols4, vset c1 (sc + i)%N c3 = Some cols4 by apply: vset_lt; rewrite hp; slia.
by rewrite h4 /=; eexists; first by []; rewrite /P /=; case: (vset_get h4) => ->.
Qed.

(** the selector of a subtable *)
Definition selects (sel : seq F) (sr : nat) (s : lookup_subtable) : Prop :=
  (forall r, vget sel r = if (r < size sel)%N then Some (if (sr + sub_begin s <= r < sr + (sub_end s).+1)%N then 1 else 0) else None) /\
  (forall k, (sub_begin s <= k < (sub_end s).+1)%N -> (sr + k < size sel)%N).
Lemma selector_columnP u sr s sel : selector_column F u sr s = Some sel -> size sel = u /\ selects sel sr s.
Proof.
rewrite /selector_column /selects; move: (sub_begin s) (sub_end s) => b e; case: (leqP b e.+1) => h; last first.
  rewrite (_ : (_ - _ = 0)%N) /=; last by apply/eqP; rewrite subn_eq0 ltnW.
  case=> <-; rewrite size_nseq; split=> //; split=> [r|k /andP[h1 h2]]; last by move: h h1 h2; slia.
  rewrite vget_nseq; case: ltnP => // _.
  by case: ifP => // /andP[h1 h2]; move: h h1 h2; slia.
rewrite -{2 3}(subnKC h); move: (e.+1 - b)%N => n {h}; elim: n sel => [|n IH] sel.
  case=> <-; rewrite size_nseq addn0; split=> //; split=> [r|k /andP[h1 h2]]; last by move: h1 h2; slia.
  rewrite vget_nseq; case: ltnP => // _.
  by case: ifP => // /andP[h1 h2]; move: h1 h2; slia.
rewrite -addn1 iotaD cats1 ofold_rcons; case E : (ofold _ _ _) => [c|] //= h.
have [s1 [g1 l1]] := IH _ E; have [s2 g2] := vset_get h.
have lt : (sr + (b + n) < u)%N by move: h; rewrite /vset s1; case: ltnP.
split; [by rewrite s2|rewrite s2 s1; split=> [r|k]].
  rewrite g2 g1 s1; case: eqP => [->|/eqP hr].
    by rewrite lt leq_add2l leq_addr ltn_add2l ltn_add2l addn1 ltnSn.
  by rewrite addn1 (addnA sr b n.+1) between_S -?addnA.
case: (k =P (b + n)%N) => [->|/eqP hk] //; rewrite addn1 between_S // => /l1; by rewrite s1.
Qed.
Lemma selector_column_ok u sr s : (sr + sub_end s < u)%N -> exists sel, selector_column F u sr s = Some sel.
Proof.
move=> h; have [c hc _] : exists2 c, selector_column F u sr s = Some c & size c = u; last by exists c.
rewrite /selector_column; pose P (p : seq nat) (c : seq F) := size c = u.
apply: (@ofold_ok _ _ _ P) => [|p k q c E hp]; first by rewrite /P size_nseq.
have : k \in iota (sub_begin s) ((sub_end s).+1 - sub_begin s) by rewrite E mem_cat inE eqxx orbT.
rewrite mem_iota => hk.
have [c' h'] : exists c', vset c (sr + k)%N 1 = Some c' by apply: vset_lt; rewrite hp; move: hk; slia.
by exists c' => //; rewrite /P; case: (vset_get h') => ->.
Qed.

Lemma omapM_comp (A B C : Type) (f : A -> option B) (g : B -> option C) s o :
  omapM f s = Some o -> omapM g o = omapM (fun x => obnd (f x) g) s.
Proof. by elim: s o => [|x s IH] o /=; [case=> <-|case: (f x) => [y|] //=; case E : (omapM f s) => [o'|] //= [<-] /=; rewrite (IH _ E)]. Qed.
Lemma eq_omapM (A : eqType) (B : Type) (f g : A -> option B) s : {in s, f =1 g} -> omapM f s = omapM g s.
Proof.
elim: s => [|x s IH] //= h; rewrite h ?inE ?eqxx // IH // => y hy; apply: h; by rewrite inE hy orbT.
Qed.
Lemma omapM_map (A B C : Type) (h : A -> B) (f : B -> option C) s : omapM f (map h s) = omapM (fun x => f (h x)) s.
Proof. by elim: s => [|x s IH] //=; rewrite IH. Qed.
Lemma omapM_def (A : eqType) (B : Type) (f : A -> option B) s : {in s, forall x, isSome (f x)} -> isSome (omapM f s).
Proof.
elim: s => [|x s IH] //= h; have := h x (mem_head _ _); case: (f x) => //= y _.
have: isSome (omapM f s) by apply: IH => z hz; apply: h; rewrite inE hz orbT.
by case: (omapM f s).
Qed.

Variables (table_id : string -> option nat) (ids : seq nat).
Implicit Types (st : packing F) (d : lookup_definition F) (ns : string * lookup_subtable).

(** the name of a subtable *)
Definition full_name (name : string) ns : string := String.append name (String.append "/"%string ns.1).

(** The subtable [ns] of a table called [name] has been declared; its rows start at row [sr], column [sc]. *)
Definition declared (tables : seq lookup_table) (cur : nat) (a : plonk_table F) (name : string) ns (sc sr : nat) : Prop :=
  exists id tag sel o, [/\ table_id (full_name name ns) = Some id /\ (0 < id)%N,
    vget tables id.-1 = Some (LookupTable (size (sub_columns ns.2)) tag [:: o]), option_of ids sc ns.2 = Some o,
    (tag < cur)%N /\ selector a tag = Some sel & selects sel sr ns.2].
(** The cells of the table [t] start at row [sr], column [sc]. *)
Definition stored cols (t : seq (seq F)) sc sr : Prop :=
  forall i c j, vget t i = Some c -> (j < size c)%N -> cell cols (sc + i) (sr + j) = vget c j.

Lemma declare_tableP tables name ns tag o tables' : declare_table table_id tables name ns.1 ns.2 tag [:: o] = Some tables' ->
  exists id, [/\ table_id (full_name name ns) = Some id, (0 < id)%N, size tables' = size tables &
    forall j, vget tables' j = if j == id.-1 then Some (LookupTable (size (sub_columns ns.2)) tag [:: o]) else vget tables j].
Proof.
rewrite /declare_table -/(full_name name ns); case: table_id => [id|] //=; case: (posnP id) => // id0.
rewrite /append_option /=; case: eqP => // _ /= h; have [h1 h2] := vset_get h; exists id; by split.
Qed.

Lemma fill_columnP (cols : seq (seq F)) i c cols' : fill_column cols i c = Some cols' ->
  size cols' = size cols /\ forall j, vget cols' j = if j == i then Some c else vget cols j.
Proof. by rewrite /fill_column; case: (vget cols i) => //= c'; case: eqP => // _ h; exact: vset_get h. Qed.
Lemma fill_selectorP (a a' : plonk_table F) i c : fill_selector a i c = Some a' ->
  (forall j, selector a' j = if j == i then Some c else selector a j) /\ (forall j, constant a' j = constant a j).
Proof. by rewrite /fill_selector; case E : (fill_column _ _ _) => [ss|] //= [<-]; have [_ h] := fill_columnP E; split. Qed.
Lemma fill_constantP (a a' : plonk_table F) i c : fill_constant a i c = Some a' ->
  (forall j, constant a' j = if j == i then Some c else constant a j) /\ (forall j, selector a' j = selector a j).
Proof. by rewrite /fill_constant; case E : (fill_column _ _ _) => [ss|] //= [<-]; have [_ h] := fill_columnP E; split. Qed.

Lemma fill_constantsP (a a' : plonk_table F) cols : uniq ids -> fill_constants ids a cols = Some a' ->
  (forall i c, vget cols i = Some c -> exists2 id, vget ids i = Some id & constant a' id = Some c) /\
  (forall j, selector a' j = selector a j).
Proof.
move=> uq; rewrite /fill_constants.
suff: forall n cols a', n = size cols -> ofold (fun a ic => obnd (vget ids ic.1) (fun id => fill_constant a id ic.2)) a
    (zip (iota 0 n) cols) = Some a' -> (forall i c, vget cols i = Some c -> exists2 id, vget ids i = Some id & constant a' id = Some c) /\
  (forall j, selector a' j = selector a j) by move=> h; apply: h.
move=> n {cols a'}; elim: n => [|n IH] cols a'.
  by case: cols => // _ [<-]; split.
case/lastP: cols => [//|cols c]; rewrite size_rcons => -[en].
rewrite -addn1 iotaD add0n cats1 zip_rcons ?size_iota // ofold_rcons.
case E : (ofold _ _ _) => [a1|] //=; case hid : (vget ids n) => [id|] //= /fill_constantP[h1 h2].
have [g1 g2] := IH _ _ en E; split=> [i c'|j]; last by rewrite h2.
rewrite -cats1 vget_cat -en; case: ltnP => hi.
  case/g1 => id' hid' e'; exists id' => //; rewrite h1; case: eqP => // ee; move: hid'; rewrite ee.
  move=> hid'; have e1 := nth_vget 0%N hid; have e2 := nth_vget 0%N hid'.
  have n1 := vget_some hid; have n2 := vget_some hid'.
  by have := nth_uniq 0%N n2 n1 uq; rewrite e1 e2 eqxx (ltn_eqF hi).
case: (i - n)%N (subnK hi) => [|k] /=; last by case: k.
by rewrite add0n => <- [<-]; exists id; rewrite // h1 eqxx.
Qed.

Lemma selects_rows sel sr s : selects sel sr s ->
  all (fun x => (x == 0) || (x == 1)) sel /\
  [seq r <- iota 0 (size sel) | nth 0 sel r == 1] = iota (sr + sub_begin s) ((sub_end s).+1 - sub_begin s).
Proof.
case=> h1 h2.
have hn r : (r < size sel)%N -> nth 0 sel r = if (sr + sub_begin s <= r < sr + (sub_end s).+1)%N then 1 else 0.
  by move=> hr; have := h1 r; rewrite hr => /(nth_vget 0).
split.
  apply/(all_nthP 0) => r /hn ->; by case: ifP; rewrite eqxx ?orbT.
rewrite (@eq_in_filter _ _ (fun r => (sr + sub_begin s <= r < sr + (sub_end s).+1)%N)); last first.
  move=> r; rewrite mem_iota /= add0n => /hn ->; by case: ifP => _; rewrite ?eqxx // eq_sym oner_eq0.
apply: (irr_sorted_eq ltn_trans ltnn); [by apply: sorted_filter; [exact: ltn_trans|exact: iota_ltn_sorted]|exact: iota_ltn_sorted|].
move=> r; rewrite mem_filter !mem_iota /= add0n.
case: (leqP (sub_begin s) (sub_end s).+1) => hb.
  rewrite -(addnA sr) subnKC //; apply: andb_idr => /andP[r1 r2].
  have := h2 (r - sr)%N; rewrite subnKC; last exact: leq_trans (leq_addr _ _) r1.
  by apply; apply/andP; split; move: r1 r2; slia.
rewrite (_ : (_ - _ = 0)%N); last by apply/eqP; rewrite subn_eq0 ltnW.
rewrite addn0; apply/idP/idP => /andP[]; last by move=> r1 r2; have := leq_ltn_trans r1 r2; rewrite ltnn.
move=> /andP[r1 r2] _; move: (leq_ltn_trans r1 r2); rewrite ltn_add2l => r3; by move: (ltn_trans hb r3); rewrite ltnn.
Qed.

(** What has been stored and declared is what the lookup table selects. *)
Lemma selectedE (a0 a : plonk_table F) cols tables cur name ns (t : seq (seq F)) n sc sr :
  uniq ids -> fill_constants ids a0 cols = Some a -> declared tables cur a0 name ns sc sr -> stored cols t sc sr ->
  (forall i c, vget t i = Some c -> size c = n) -> {in sub_columns ns.2, forall k, (k < size t)%N} -> (sub_end ns.2 < n)%N ->
  exists id lt, [/\ table_id (full_name name ns) = Some id, (0 < id)%N, vget tables id.-1 = Some lt,
    selected_rows a lt = subtable_rows t ns.2 & isSome (subtable_rows t ns.2)].
Proof.
move=> uq hf [id [tag [sel [o [[hid id0] hlt ho [_ htag] hsel]]]]] hst hrows hcols hend.
exists id, (LookupTable (size (sub_columns ns.2)) tag [:: o]); split=> //; last first.
  apply: omapM_def => r; rewrite mem_iota => /andP[r1 r2]; apply: omapM_def => c /hcols hc.
  have [col hcol] := vget_lt hc; rewrite hcol /=.
  have hr : (r < size col)%N.
    rewrite (hrows _ _ hcol); apply: leq_trans hend; move: r2; case: (leqP (sub_begin ns.2) (sub_end ns.2).+1) => h.
      by rewrite subnKC.
    rewrite (_ : (_ - _ = 0)%N); last by apply/eqP; rewrite subn_eq0 ltnW.
    by rewrite addn0 ltnNge r1.
  by have [x ->] := vget_lt hr.
have [f1 f2] := fill_constantsP uq hf; have [s1 s2] := selects_rows hsel.
rewrite /selected_rows /= f2 htag /= s1 s2 /subtable_rows.
set m := (_ - sub_begin _)%N; rewrite iotaDl omapM_map.
suff -> : omapM (fun x => omapM (fun v => constant_cell a v (sr + x)%N) o) (iota (sub_begin ns.2) m) =
   omapM (fun r => omapM (fun k => obnd (vget t k) (fun column => vget column r)) (sub_columns ns.2)) (iota (sub_begin ns.2) m).
  by case: (omapM _ _) => //= r; rewrite cats0.
apply: eq_omapM => r; rewrite mem_iota => /andP[r1 r2].
have hr : (r < n)%N.
  apply: leq_trans hend; move: r2; rewrite /m; case: (leqP (sub_begin ns.2) (sub_end ns.2).+1) => h.
    by rewrite subnKC.
  rewrite (_ : (_ - _ = 0)%N); last by apply/eqP; rewrite subn_eq0 ltnW.
  by rewrite addn0 ltnNge r1.
rewrite (omapM_comp _ ho); apply: eq_omapM => c /hcols hc; have [col hcol] := vget_lt hc.
rewrite hcol /= /constant_cell; have hr' : (r < size col)%N by rewrite (hrows _ _ hcol).
have := hst _ _ _ hcol hr'; rewrite /cell; have [x hx] := vget_lt hr'; rewrite hx.
case ec : (vget cols _) => [col'|] //= e; have [id' -> hc'] := f1 _ _ ec.
by rewrite /= hc' /= e.
Qed.

(** [declared] in a state of the packing functions *)
Definition done st (name : string) ns sc sr := declared (pk_tables st) (pk_selector st) (pk_assignment st) name ns sc sr.
Definition id_of (name : string) ns : option nat := table_id (full_name name ns).

Lemma pack_subtableP sc sr name st ns st' : pack_subtable table_id ids sc sr name st ns = Some st' ->
  [/\ pk_columns st' = pk_columns st, pk_usable st' = pk_usable st, pk_selector st' = (pk_selector st).+1, done st' name ns sc sr &
    forall name' ns' sc' sr', done st name' ns' sc' sr' -> id_of name' ns' != id_of name ns -> done st' name' ns' sc' sr'].
Proof.
rewrite /pack_subtable; case: ns => sub s; case hsel : (selector_column _ _ _ _) => [sel|] //=.
case ho : (option_of _ _ _) => [o|] //=; case hd : (declare_table _ _ _ _ _ _ _) => [tables|] //=.
case hf : (fill_selector _ _ _) => [a|] //= [<-]; rewrite /done /=.
have [id [h1 h2 h3 h4]] := declare_tableP (ns := (sub, s)) hd; have [f1 _] := fill_selectorP hf; have [_ hs] := selector_columnP hsel.
split=> //.
  by exists id, (pk_selector st), sel, o; split=> //; rewrite ?h4 ?f1 ?eqxx.
move=> name' ns' sc' sr' [id' [tag [sel' [o' [[e1 e2] e3 e4 [e5 e6] e7]]]]] hne.
exists id', tag, sel', o'; split=> //.
  rewrite h4; case: eqP => // e; case/negP: hne; rewrite /id_of e1 h1; apply/eqP; congr Some.
  by move: e; case: (id') e2 => // i _; case: (id) h2 => // j _ /= ->.
split; first exact: leqW.
by rewrite f1 (ltn_eqF e5).
Qed.

Lemma pack_subtablesP sc sr name st subs st' : uniq (map (id_of name) subs) ->
  ofold (pack_subtable table_id ids sc sr name) st subs = Some st' ->
  [/\ pk_columns st' = pk_columns st, pk_usable st' = pk_usable st, forall ns, List.In ns subs -> done st' name ns sc sr &
    forall name' ns' sc' sr', done st name' ns' sc' sr' -> id_of name' ns' \notin map (id_of name) subs -> done st' name' ns' sc' sr'].
Proof.
elim: subs st => [|ns subs IH] st /=; first by move=> _ [<-].
case/andP=> hni uq; case E : (pack_subtable _ _ _ _ _ _ _) => [st1|] //= hl.
have [p1 p2 _ p4 p5] := pack_subtableP E; have [q1 q2 q3 q4] := IH _ uq hl.
split; [by rewrite q1|by rewrite q2| |].
  by move=> ns' [<-|/q3 //]; apply: q4.
move=> name' ns' sc' sr' hd; rewrite inE negb_or => /andP[n1 n2]; apply: q4 => //; exact: p5.
Qed.

(** The columns of a table have the number of rows its definition declares. *)
Definition regular d := all (fun c => size c == ld_rows d) (ld_table d).
Lemma regularP d i c : regular d -> vget (ld_table d) i = Some c -> size c = ld_rows d.
Proof. move=> /allP h e; apply/eqP/h; rewrite -(nth_vget [::] e); apply: mem_nth; exact: vget_some e. Qed.

Definition ids_of (ds : seq (lookup_definition F)) : seq (option nat) :=
  flatten [seq [seq id_of (ld_name d) ns | ns <- ld_subtables d] | d <- ds].
Lemma ids_of_in ds d ns : List.In d ds -> List.In ns (ld_subtables d) -> id_of (ld_name d) ns \in ids_of ds.
Proof.
rewrite /ids_of; elim: ds => [|d' ds IH] //= [<-|h] hn; rewrite mem_cat; last by rewrite (IH h hn) orbT.
by elim: (ld_subtables d') hn => [|n' l IH'] //= [<-|/IH']; rewrite inE ?eqxx // orbC => /orP[->|->]; rewrite ?orbT.
Qed.
Lemma ids_of_rcons ds d : ids_of (rcons ds d) = ids_of ds ++ [seq id_of (ld_name d) ns | ns <- ld_subtables d].
Proof. by rewrite /ids_of map_rcons flatten_rcons. Qed.
Lemma In_rcons {A : Type} {l : seq A} {x y} : List.In y (rcons l x) -> List.In y l \/ y = x.
Proof. by elim: l => [|z l IH] /=; [case=> [->|//]; right|case=> [->|/IH[h|->]]; [left; left|left; right|right]]. Qed.

(** Row 0 of the constant columns holds zeros only. *)
Definition zero_row cols := forall k x, cell cols k 0 = Some x -> x = 0.

(** ** The loop over the tables, vertical packing *)
Definition vertical_inv (n : nat) (ds : seq (lookup_definition F)) (b : packing F * nat) : Prop :=
  [/\ size (pk_columns b.1) = n, fits (pk_columns b.1) (pk_usable b.1), (0 < b.2)%N, zero_row (pk_columns b.1) &
   forall d, List.In d ds -> exists sr, [/\ (0 < sr)%N, (sr + ld_rows d <= b.2)%N, stored (pk_columns b.1) (ld_table d) 0 sr &
     forall ns, List.In ns (ld_subtables d) -> done b.1 (ld_name d) ns 0 sr]].

Lemma stored_place sc sr cols u t cols' u' t0 sc0 sr0 n : place_table sc sr (cols, u) t = Some (cols', u') ->
  (forall i c, vget t0 i = Some c -> size c = n) ->
  (sc0 + size t0 <= sc)%N || (sr0 + n <= sr)%N -> stored cols t0 sc0 sr0 -> stored cols' t0 sc0 sr0.
Proof.
move=> /place_tableP[[_ _ _ _ h] _] hn hd hs i c j hi hj; have [x hx] := vget_lt hj; rewrite hx; apply: h.
  by rewrite (hs i c j hi hj).
case/orP: hd => hd.
  rewrite (leq_trans _ hd) //; last by rewrite -addnS leq_add2l; exact: vget_some hi.
by rewrite (leq_trans _ hd) ?orbT // -addnS leq_add2l -(hn _ _ hi).
Qed.

Lemma vertical_step n ds d q b b' : (forall d', List.In d' (rcons ds d) -> regular d') -> uniq (ids_of (ds ++ d :: q)) ->
  vertical_inv n ds b -> pack_table table_id ids b d = Some b' -> vertical_inv n (rcons ds d) b'.
Proof.
case: b => st sr hreg huq [h1 h2 h3 h4 h5] /=; case hp : (place_table _ _ _ _) => [[cols u]|] //=.
case hs : (ofold _ _ _) => [st'|] //= [<-]; rewrite /= in h1 h2 h3 h4 h5.
move: huq; rewrite -cat_rcons /ids_of map_cat flatten_cat -/(ids_of _) ids_of_rcons cat_uniq => /andP[uq _].
move: uq; rewrite cat_uniq => /and3P[_ hdis uq].
have [q1 q2 q3 q4] := pack_subtablesP uq hs; rewrite /= in q1 q2.
have [[p1 p2 p3 p4 p5] p6] := place_tableP hp; have [p7 p8] := p3 h2.
rewrite /vertical_inv /= q1 q2; split=> //; [by rewrite p1|by rewrite addn_gt0 h3| |].
  move=> k x; apply: p6 => // y; exact: h4.
move=> d' /In_rcons[hd'|->]; last by exists sr; split=> // i c j hi hj; exact: p4.
have [sr' [s1 s2 s3 s4]] := h5 _ hd'; exists sr'; split=> //; first exact: leq_trans s2 (leq_addr _ _).
  apply: (stored_place hp (n := ld_rows d')) => [i c||//]; last by rewrite s2 orbT.
  apply: regularP; apply: hreg; elim: (ds) hd' => [|z l IH] //= [->|/IH h]; [by left|by right].
move=> ns hns; apply: q4; first exact: s4.
apply/negP => hin; case/hasP: hdis; exists (id_of (ld_name d') ns) => //; exact: ids_of_in.
Qed.

Lemma vertical_loop ds st0 b : (forall d, List.In d ds -> regular d) -> uniq (ids_of ds) ->
  fits (pk_columns st0) (pk_usable st0) -> zero_row (pk_columns st0) ->
  ofold (pack_table table_id ids) (st0, 1%N) ds = Some b -> vertical_inv (size (pk_columns st0)) ds b.
Proof.
move=> hreg huq hf hz; apply: ofold_inv_in => // p d q b1 b2 E hi hs.
have huq' : uniq (ids_of (p ++ d :: q)) by rewrite -E.
apply: (vertical_step _ huq' hi hs).
move=> d' hd'; apply: hreg; rewrite E -cat_rcons; exact: (proj2 (List.in_app_iff _ _ _) (or_introl hd')).
Qed.

(** ** The loop over the tables, horizontal packing of tables with less than [max_usable_rows] rows *)
Definition horizontal_inv (n : nat) (ds : seq (lookup_definition F)) (h : horizontal F) : Prop :=
  let st := hz_packing h in
  [/\ size (pk_columns st) = n, fits (pk_columns st) (pk_usable st), (0 < hz_start_row h)%N, zero_row (pk_columns st) &
   forall d, List.In d ds -> exists sc sr, [/\ (0 < sr)%N,
     (sc + size (ld_table d) <= hz_start_column h)%N \/
       (sc + size (ld_table d) <= hz_start_column h + hz_prev_columns h)%N /\ (sr + ld_rows d <= hz_start_row h)%N,
     stored (pk_columns st) (ld_table d) sc sr &
     forall ns, List.In ns (ld_subtables d) -> done st (ld_name d) ns sc sr]].

Definition range ns := (sub_begin ns.2, sub_end ns.2).
Lemma pack_subtables_horizontalP sc sr name st m subs st' m' : uniq (map range subs) -> all (fun e => e.1 \notin map range subs) m ->
  ofold (pack_subtable_horizontal table_id ids sc sr name) (st, m) subs = Some (st', m') ->
  ofold (pack_subtable table_id ids sc sr name) st subs = Some st'.
Proof.
elim: subs st m => [|ns subs IH] st m /=; first by move=> _ _ [-> _].
case/andP=> hni uq hm; rewrite /pack_subtable_horizontal; have -> : find_range m (sub_begin ns.2, sub_end ns.2) = None.
  elim: m hm => [|[k v] m IHm] //= /andP[hk hm]; case: eqP => [e|_]; last exact: IHm.
  by move: hk; rewrite e inE eqxx.
case E : (pack_subtable _ _ _ _ _ _ _) => [st1|] //=; apply: IH => //=; rewrite hni /=.
apply: sub_all hm => e; by rewrite inE negb_or => /andP[].
Qed.

Lemma horizontal_step mx n ds d q h h' : (forall d', List.In d' (rcons ds d) -> regular d') -> uniq (ids_of (ds ++ d :: q)) ->
  ld_columns d = size (ld_table d) -> (ld_rows d < mx)%N -> uniq (map range (ld_subtables d)) ->
  horizontal_inv n ds h -> pack_table_horizontal table_id ids mx h d = Some h' -> horizontal_inv n (rcons ds d) h'.
Proof.
move=> hreg huq hcols hmx hrange [h1 h2 h3 h4 h5]; rewrite /pack_table_horizontal ltnNge (ltnW hmx) hmx /=.
set cond := if _ then _ else _; have [sr [sc [prev [ec c1 c2 c3]]]] : exists sr sc prev, [/\ cond = (sr, sc, prev), (0 < sr)%N,
   (size (ld_table d) <= prev)%N &
   (sr = hz_start_row h /\ sc = hz_start_column h /\ (hz_prev_columns h <= prev)%N) \/ sc = (hz_start_column h + hz_prev_columns h)%N].
  rewrite /cond; case: ifP => _; do 3 eexists; (split; [reflexivity|by []| |]); rewrite hcols //; try by [right].
    by case: ltnP.
  by left; split=> //; split=> //; case: ltnP => // /ltnW.
rewrite ec; case hp : (place_table _ _ _ _) => [[cols u]|] //=.
case hs : (ofold _ _ _) => [[st' m']|] //= [<-].
have {}hs := pack_subtables_horizontalP hrange (erefl : all _ [::]) hs.
move: huq; rewrite -cat_rcons /ids_of map_cat flatten_cat -/(ids_of _) ids_of_rcons cat_uniq => /andP[uq _].
move: uq; rewrite cat_uniq => /and3P[_ hdis uq].
have [q1 q2 q3 q4] := pack_subtablesP uq hs; rewrite /= in q1 q2.
have [[p1 p2 p3 p4 p5] p6] := place_tableP hp; have [p7 p8] := p3 h2.
rewrite /horizontal_inv /= q1 q2; split=> //; [by rewrite p1|by rewrite addn_gt0 c1| |].
  move=> k x; apply: p6 => // y; exact: h4.
move=> d' /In_rcons[hd'|->]; last first.
  exists sc, sr; split=> //; first by right; rewrite leq_add2l.
  by move=> i c j hi hj; exact: p4.
have [sc' [sr' [s1 s2 s3 s4]]] := h5 _ hd'; exists sc', sr'; split=> //.
- case: c3 => [[-> [-> hprev]]|->]; case: s2 => [s2|[s2 s2']].
  + by left.
  + by right; split; [apply: leq_trans s2 _; rewrite leq_add2l|apply: leq_trans s2' (leq_addr _ _)].
  + by left; apply: leq_trans s2 (leq_addr _ _).
  + by left.
- apply: (stored_place hp (n := ld_rows d')) => [i c||//].
    apply: regularP; apply: hreg; elim: (ds) hd' => [|z l IH] //= [->|/IH hh]; [by left|by right].
  case: c3 => [[-> [-> hprev]]|->]; case: s2 => [s2|[s2 s2']].
  + by rewrite s2.
  + by rewrite s2' orbT.
  + by rewrite (leq_trans s2 (leq_addr _ _)).
  + by rewrite s2.
move=> ns hns; apply: q4; first exact: s4.
apply/negP => hin; case/hasP: hdis; exists (id_of (ld_name d') ns) => //; exact: ids_of_in.
Qed.

Lemma horizontal_loop mx ds st0 h : (forall d, List.In d ds -> [/\ regular d, ld_columns d = size (ld_table d), (ld_rows d < mx)%N &
    uniq (map range (ld_subtables d))]) -> uniq (ids_of ds) ->
  fits (pk_columns st0) (pk_usable st0) -> zero_row (pk_columns st0) ->
  ofold (pack_table_horizontal table_id ids mx) (Horizontal st0 1 0 0 0) ds = Some h -> horizontal_inv (size (pk_columns st0)) ds h.
Proof.
move=> hreg huq hf hz; apply: ofold_inv_in => // p d q b1 b2 E hi hs.
have hin d' : List.In d' (rcons p d) -> List.In d' ds.
  by move=> hd'; rewrite E -cat_rcons; exact: (proj2 (List.in_app_iff _ _ _) (or_introl hd')).
have [r1 r2 r3 r4] : [/\ regular d, ld_columns d = size (ld_table d), (ld_rows d < mx)%N & uniq (map range (ld_subtables d))].
  apply: hreg; rewrite E; apply: (proj2 (List.in_app_iff _ _ _)); right; by left.
apply: (horizontal_step _ _ r2 r3 r4 hi hs (q := q)); last by rewrite -E.
by move=> d' /hin/hreg[].
Qed.

(** ** The vertical packing does not fail *)
Lemma declare_table_ok tables name ns tag o id : id_of name ns = Some id -> (0 < id <= size tables)%N ->
  size o = size (sub_columns ns.2) ->
  exists2 tables', declare_table table_id tables name ns.1 ns.2 tag [:: o] = Some tables' & size tables' = size tables.
Proof.
rewrite /declare_table -/(full_name name ns) -/(id_of name ns) => -> /andP[id0 hid] so; rewrite /= id0 /append_option /= so eqxx /=.
have [t' ht] : exists t', vset tables id.-1 (LookupTable (size (sub_columns ns.2)) tag [:: o]) = Some t'.
  by apply: vset_lt; rewrite prednK.
by exists t' => //; case: (vset_get ht).
Qed.
Lemma option_of_ok sc s : {in sub_columns s, forall k, (sc + k < size ids)%N} ->
  exists2 o, option_of ids sc s = Some o & size o = size (sub_columns s).
Proof.
move=> h; have: isSome (option_of ids sc s).
  apply: omapM_def => k /h hk; by have [x ->] := vget_lt hk.
by case E : (option_of ids sc s) => [o|] // _; exists o => //; exact: omapM_size E.
Qed.
Lemma fill_column_ok (cols : seq (seq F)) i c : vget cols i = Some [::] -> exists cols', fill_column cols i c = Some cols'.
Proof. by move=> h; rewrite /fill_column h /=; apply: vset_lt; exact: vget_some h. Qed.

(** The state between two steps: [k] selectors have been used since the state of [a0]. *)
Definition ready (n_tables cur0 : nat) (a0 : plonk_table F) (k : nat) st : Prop :=
  [/\ size (pk_columns st) = size ids, fits (pk_columns st) (pk_usable st), size (pk_tables st) = n_tables, pk_selector st = (cur0 + k)%N &
    (forall j, (cur0 + k <= j)%N -> selector (pk_assignment st) j = selector a0 j) /\ (forall j, constant (pk_assignment st) j = constant a0 j)].

Lemma pack_subtable_ok n_tables cur0 a0 k sc sr name st ns : ready n_tables cur0 a0 k st ->
  selector a0 (cur0 + k) = Some [::] -> (exists2 id, id_of name ns = Some id & (0 < id <= n_tables)%N) ->
  (sr + sub_end ns.2 < pk_usable st)%N -> {in sub_columns ns.2, forall i, (sc + i < size ids)%N} ->
  exists st', [/\ pack_subtable table_id ids sc sr name st ns = Some st', ready n_tables cur0 a0 k.+1 st' & pk_usable st' = pk_usable st].
Proof.
case: ns => sub s; case=> [r1 r2 r3 r4 [r5 r6]] hsel [id hid hlt] hend hcols; rewrite /pack_subtable.
have [sel ->] := selector_column_ok hend; have [o -> so] := option_of_ok hcols.
rewrite /=; have hlt' : (0 < id <= size (pk_tables st))%N by rewrite r3.
have [t' h1 h2] := declare_table_ok (pk_selector st) hid hlt' so; rewrite /= in h1; rewrite h1 /=.
rewrite /fill_selector; have [ss hss] : exists ss, fill_column (pu_selectors (pt_public (pk_assignment st))) (pk_selector st) sel = Some ss.
  by apply: fill_column_ok; rewrite -hsel -(r5 _ (leqnn _)) r4.
rewrite hss /=; eexists; split; [reflexivity|split=> //=|by []].
- by rewrite h2.
- by rewrite r4 addnS.
split=> // j hj; have [_ hv] := fill_columnP hss; rewrite /selector /= hv r4 gtn_eqF; last by rewrite -addnS.
by apply: r5; apply: leq_trans hj; rewrite addnS.
Qed.

Definition subtables_of (ds : seq (lookup_definition F)) : nat := sumn [seq size (ld_subtables d) | d <- ds].

Lemma pack_subtables_ok n_tables cur0 a0 k sc sr name st subs : ready n_tables cur0 a0 k st ->
  (forall i, (i < size subs)%N -> selector a0 (cur0 + (k + i)) = Some [::]) ->
  (forall ns, List.In ns subs -> [/\ exists2 id, id_of name ns = Some id & (0 < id <= n_tables)%N,
     (sr + sub_end ns.2 < pk_usable st)%N & {in sub_columns ns.2, forall i, (sc + i < size ids)%N}]) ->
  exists st', [/\ ofold (pack_subtable table_id ids sc sr name) st subs = Some st', ready n_tables cur0 a0 (k + size subs) st' &
    pk_usable st' = pk_usable st].
Proof.
elim: subs k st => [|ns subs IH] k st hr hsel hns /=; first by exists st; rewrite addn0.
have [i1 i2 i3] := hns ns (or_introl (erefl _)); have h0 := hsel 0%N isT; rewrite addn0 in h0.
have [st1 [-> r1 e1]] := pack_subtable_ok hr h0 i1 i2 i3; rewrite /=.
case: (IH _ _ r1) => [i hi|ns' hns'|st2 [h1 h2 h3]]; [by rewrite addSn -addnS; apply: hsel|by rewrite e1; apply: hns; right|].
by exists st2; rewrite h1 addnS -addSn h3.
Qed.

Lemma vertical_ok n_tables cur0 a0 ds st0 : ready n_tables cur0 a0 0 st0 ->
  (forall i, (i < subtables_of ds)%N -> selector a0 (cur0 + i) = Some [::]) ->
  (forall d, List.In d ds -> [/\ regular d, (size (ld_table d) <= size ids)%N & forall ns, List.In ns (ld_subtables d) ->
     [/\ exists2 id, id_of (ld_name d) ns = Some id & (0 < id <= n_tables)%N, (sub_end ns.2 < ld_rows d)%N,
      (0 < size (ld_table d))%N & {in sub_columns ns.2, forall i, (i < size (ld_table d))%N}]]) ->
  exists2 b, ofold (pack_table table_id ids) (st0, 1%N) ds = Some b & ready n_tables cur0 a0 (subtables_of ds) b.1.
Proof.
move=> h0 hsel hds; apply: (@ofold_ok _ _ _ (fun p b => ready n_tables cur0 a0 (subtables_of p) b.1)) => // p d q [st sr] E /= hp.
have [d1 d2 d3] : [/\ regular d, (size (ld_table d) <= size ids)%N & forall ns, List.In ns (ld_subtables d) ->
     [/\ exists2 id, id_of (ld_name d) ns = Some id & (0 < id <= n_tables)%N, (sub_end ns.2 < ld_rows d)%N,
      (0 < size (ld_table d))%N & {in sub_columns ns.2, forall i, (i < size (ld_table d))%N}]].
  by apply: hds; rewrite E; apply: (proj2 (List.in_app_iff _ _ _)); right; left.
case: (hp) => [r1 r2 r3 r4 [r5 r6]].
have [[cols u] hpl] : exists r, place_table 0 sr (pk_columns st, pk_usable st) (ld_table d) = Some r.
  by apply: place_table_ok; rewrite add0n r1.
rewrite hpl /=; have [[p1 p2 p3 _ _] _] := place_tableP hpl; have [p4 p5] := p3 r2.
have hr : ready n_tables cur0 a0 (subtables_of p) (Packing cols u (pk_selector st) (pk_assignment st) (pk_tables st)).
  by split=> //=; rewrite p1.
have esum : subtables_of ds = (subtables_of p + (size (ld_subtables d) + subtables_of q))%N.
  by rewrite E /subtables_of map_cat sumn_cat.
case: (pack_subtables_ok (sc := 0) (sr := sr) (name := ld_name d) (subs := ld_subtables d) hr) => [i hi|ns /d3[e1 e2 e3 e4]|st' [-> s2 _]].
- by apply: hsel; rewrite esum ltn_add2l (leq_trans hi) // leq_addr.
- split=> //= [|c /e4 hc]; last by rewrite add0n; exact: leq_trans hc d2.
  have [c hc] := vget_lt e3; apply: leq_trans (p5 _ _ hc); by rewrite ltn_add2l (regularP d1 hc).
by eexists; first reflexivity; rewrite /= /subtables_of map_rcons sumn_rcons.
Qed.

Lemma fill_constants_ok (a : plonk_table F) cols : uniq ids -> (size cols <= size ids)%N ->
  (forall id, id \in ids -> constant a id = Some [::]) -> exists a', fill_constants ids a cols = Some a'.
Proof.
move=> uq hs hc; rewrite /fill_constants.
suff [b hb _] : exists2 b, ofold (fun a ic => obnd (vget ids ic.1) (fun id => fill_constant a id ic.2)) a (zip (iota 0 (size cols)) cols) = Some b &
    forall k id, (size (zip (iota 0 (size cols)) cols) <= k)%N -> vget ids k = Some id -> constant b id = Some [::] by exists b.
apply: (@ofold_ok _ _ _ (fun p b => forall k id, (size p <= k)%N -> vget ids k = Some id -> constant b id = Some [::])).
  by move=> k id _ e; apply: hc; rewrite -(nth_vget 0%N e); apply: mem_nth; exact: vget_some e.
move=> p [i c] q b E hb /=.
have hi : i = size p.
  have := congr1 (fun z => nth 0%N (unzip1 z) (size p)) E; rewrite unzip1_zip ?size_iota //.
  rewrite /unzip1 map_cat nth_cat size_map ltnn subnn /= nth_iota // -[size cols](size_iota 0).
  have := congr1 size E; rewrite size_zip size_iota minnn size_cat /= => ->; by rewrite addnS ltnS leq_addr.
have hp : (size p < size ids)%N.
  apply: leq_trans hs; have := congr1 size E; rewrite size_zip size_iota minnn size_cat /= => ->; by rewrite addnS ltnS leq_addr.
rewrite hi; have [id hid] := vget_lt hp; rewrite hid /= /fill_constant.
have [cs hcs] : exists cs, fill_column (pu_constants (pt_public b)) id c = Some cs by apply: fill_column_ok; exact: (hb _ _ (leqnn _) hid).
rewrite hcs /=; eexists; first reflexivity; move=> k id' hk hid'; have [_ hv] := fill_columnP hcs.
rewrite size_rcons in hk; rewrite /constant /= hv; case: eqP => [e|_]; last by apply: (hb k) => //; exact: ltnW.
have n1 := vget_some hid; have n2 := vget_some hid'.
have := nth_uniq 0%N n1 n2 uq; by rewrite (nth_vget _ hid) (nth_vget _ hid') e eqxx (ltn_eqF hk).
Qed.
End Packing.
