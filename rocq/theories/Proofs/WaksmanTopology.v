(** The tables of the AS-Waksman model as functions, and the topology that the code constructs. *)
From mathcomp Require Import all_ssreflect.
From Verif.Model Require Import Base OrderedMap IntegerPermutation AsWaksman.
From Verif.Proofs Require Import NatTac PermProofs.
Set Implicit Arguments.
Unset Strict Implicit.
Unset Printing Implicit Defensive.

(** ** Number of columns *)
Lemma ncol_le n k : 0 < n -> (aw_num_columns n <= 2 * k + 1) = (n <= 2 ^ k.+1).
Proof.
move=> hn; rewrite /aw_num_columns; case: ltnP => h; last by rewrite (leq_trans h) // expn_gt0.
have := up_log_bounds (ltnSn 1) h; have : 0 < up_log 2 n by rewrite up_log_gt0.
move: (up_log 2 n) => u hu /andP[h1 h2]; apply/idP/idP => h3.
  by apply: (leq_trans h2); rewrite leq_pexp2l //; slia.
have : 2 ^ u.-1 < 2 ^ k.+1 by apply: leq_trans h1 h3.
by rewrite ltn_exp2l //; move: hu; case: (u) => // u' _ /=; slia.
Qed.
Lemma ncol_lt n k : 0 < n -> (aw_num_columns n < 2 * k + 1) = (n <= 2 ^ k).
Proof.
move=> hn; case: k => [|k].
  rewrite /aw_num_columns expn0; case: (ltnP 1 n) => h //.
  have : 0 < up_log 2 n by rewrite up_log_gt0.
  by move: (up_log 2 n) => u hu; apply/idP/idP; slia.
rewrite -(ncol_le k hn) /aw_num_columns; case: (ltnP 1 n) => h; last by apply/idP/idP; slia.
have : 0 < up_log 2 n by rewrite up_log_gt0.
by move: (up_log 2 n) => u hu; apply/idP/idP; slia.
Qed.
Lemma half_le n k : n <= 2 ^ k.+1 -> n %/ 2 <= 2 ^ k /\ n - n %/ 2 <= 2 ^ k.
Proof. by rewrite expnS divn2 => h; have := odd_double_half n; move: (2 ^ k) h (n./2) (odd n) => P h d [] /=; slia. Qed.
Lemma half_eq n : n = (2 * (n %/ 2) + odd n)%N.
Proof. by rewrite divn2 -{1}(odd_double_half n); slia. Qed.

(** ** Tables *)
Definition nbf (nb : aw_topology) (c p : nat) : nat * nat := nth (0, 0) (nth [::] nb c) p.
Definition rf (r : aw_routing) (c p : nat) : option bool := om_get (nth [::] r c) p.
Definition nshape (w m : nat) (nb : aw_topology) := size nb = w /\ forall c, c < w -> size (nth [::] nb c) = m.

Lemma om_get_set' (T : Type) (m : omapT T) k x k' : om_get (om_set m k x) k' = if k == k' then Some x else om_get m k'.
Proof.
elim: m => //= -[k1 y] m ih; case: ltngtP => h /=.
- by [].
- rewrite ih; case: (k1 =P k') => [e|_] //; case: eqP => // e'; slia.
- by rewrite -h; case: eqP.
Qed.
Lemma om_get_erase (T : Type) (m : omapT T) k k' : om_get [seq e <- m | e.1 != k] k' = if k == k' then None else om_get m k'.
Proof.
elim: m => [|[k1 y] m ih] /=; first by case: ifP.
case: (k1 =P k) => [->|ne] /=; first by rewrite ih; case: eqP.
by rewrite ih; case: (k1 =P k') => [e|] //; case: (k =P k') => // e'; case: ne; rewrite e e'.
Qed.

Lemma aw_nset_ok w m nb c r x : nshape w m nb -> c < w -> r < m -> exists nb', [/\ aw_nset nb c r x = Some nb', nshape w m nb' &
  forall c' r', nbf nb' c' r' = if (c' == c) && (r' == r) then x else nbf nb c' r'].
Proof.
move=> [h1 h2] hc hr; rewrite /aw_nset (vget_nth [::]) ?h1 //=.
have hr' : r < size (nth [::] nb c) by rewrite h2.
have [col [-> s1 g1]] := vset_ok (0, 0) x hr'.
have hc' : c < size nb by rewrite h1.
have [nb' [e2 s2 g2]] := vset_ok [::] col hc'.
exists nb'; rewrite /= e2; split=> //.
  by split; rewrite ?s2 // => c1 hc1; rewrite g2; case: eqP => _; rewrite ?s1 h2.
by move=> c' r'; rewrite /nbf g2; case: (c' =P c) => [->|_] //=; rewrite g1.
Qed.
Lemma aw_rset_ok r c p b : c < size r -> exists r', [/\ aw_rset r c p b = Some r', size r' = size r &
  forall c' p', rf r' c' p' = if (c' == c) && (p' == p) then Some b else rf r c' p'].
Proof.
move=> hc; rewrite /aw_rset (vget_nth [::]) //=.
have [r' [e2 s2 g2]] := vset_ok [::] (om_set (nth [::] r c) p b) hc.
exists r'; split=> // c' p'; rewrite /rf g2; case: (c' =P c) => [->|_] //=; by rewrite om_get_set' eq_sym.
Qed.
Lemma aw_erase_ok r c p : c < size r -> exists r', [/\ aw_erase r c p = Some r', size r' = size r &
  forall c' p', rf r' c' p' = if (c' == c) && (p' == p) then None else rf r c' p'].
Proof.
move=> hc; rewrite /aw_erase (vget_nth [::]) //=.
have [r' [e2 s2 g2]] := vset_ok [::] [seq e <- nth [::] r c | e.1 != p] hc.
exists r'; split=> // c' p'; rewrite /rf g2; case: (c' =P c) => [->|_] //=; by rewrite om_get_erase eq_sym.
Qed.
Lemma aw_rget_ok r c p : c < size r -> aw_rget r c p = Some (rf r c p).
Proof. by move=> h; rewrite /aw_rget (vget_nth [::]). Qed.

(** ** The topology of a sub-network: rows [lo .. lo + n - 1], columns [left .. left + 2 k]; [dest] is the row after the last column *)
Definition newdest (lo n r : nat) : nat :=
  let j := (r - lo)%N in
  if j < n %/ 2 then (lo + 2 * j)%N else if odd n && (j == n - 1) then r else (lo + 2 * (j - n %/ 2) + 1)%N.

Fixpoint topo (N : nat -> nat -> nat * nat) (k left lo n : nat) (dest : nat -> nat) : Prop :=
  if n <= 2 ^ k then
    if k is k'.+1 then
      [/\ forall i, i < n -> N left (lo + i) = (lo + i, lo + i),
        forall i, i < n -> N (left + 2 * k) (lo + i) = (dest (lo + i), dest (lo + i)) & topo N k' left.+1 lo n id]
    else forall i, i < n -> N left (lo + i) = (dest (lo + i), dest (lo + i))
  else if n == 2 then N left lo = (dest lo, dest lo.+1) /\ N left lo.+1 = (dest lo.+1, dest lo)
  else if k is k'.+1 then
    [/\ forall i, i < n %/ 2 -> let x := (lo + 2 * i)%N in let t := (lo + i)%N in let b := (lo + i + n %/ 2)%N in
        if ~~ odd n && (i.+1 == n %/ 2) then N left x = (t, t) /\ N left x.+1 = (b, b) else N left x = (t, b) /\ N left x.+1 = (b, t),
      forall i, i < n %/ 2 -> let x := (lo + 2 * i)%N in
        N (left + 2 * k) x = (dest x, dest x.+1) /\ N (left + 2 * k) x.+1 = (dest x.+1, dest x),
      odd n -> let h := (lo + n - 1)%N in N left h = (h, h) /\ N (left + 2 * k) h = (dest h, dest h),
      topo N k' left.+1 lo (n %/ 2) (newdest lo n) & topo N k' left.+1 (lo + n %/ 2) (n - n %/ 2) (newdest lo n)]
  else False.

Lemma topoS N k left lo n dest : topo N k.+1 left lo n dest =
  if n <= 2 ^ k.+1 then
      [/\ forall i, i < n -> N left (lo + i) = (lo + i, lo + i),
        forall i, i < n -> N (left + 2 * k.+1) (lo + i) = (dest (lo + i), dest (lo + i)) & topo N k left.+1 lo n id]
  else if n == 2 then N left lo = (dest lo, dest lo.+1) /\ N left lo.+1 = (dest lo.+1, dest lo)
  else
    [/\ forall i, i < n %/ 2 -> let x := (lo + 2 * i)%N in let t := (lo + i)%N in let b := (lo + i + n %/ 2)%N in
        if ~~ odd n && (i.+1 == n %/ 2) then N left x = (t, t) /\ N left x.+1 = (b, b) else N left x = (t, b) /\ N left x.+1 = (b, t),
      forall i, i < n %/ 2 -> let x := (lo + 2 * i)%N in
        N (left + 2 * k.+1) x = (dest x, dest x.+1) /\ N (left + 2 * k.+1) x.+1 = (dest x.+1, dest x),
      odd n -> let h := (lo + n - 1)%N in N left h = (h, h) /\ N (left + 2 * k.+1) h = (dest h, dest h),
      topo N k left.+1 lo (n %/ 2) (newdest lo n) & topo N k left.+1 (lo + n %/ 2) (n - n %/ 2) (newdest lo n)].
Proof. by []. Qed.

Lemma topo_ext N N' k left lo n dest dest' :
  (forall c p, left <= c <= left + 2 * k -> lo <= p < lo + n -> N c p = N' c p) ->
  (forall p, lo <= p < lo + n -> dest p = dest' p) ->
  topo N k left lo n dest -> topo N' k left lo n dest'.
Proof.
elim: k left lo n dest dest' => [|k ih] left lo n dest dest' hN hd.
  rewrite /= muln0 addn0 in hN *; case: leqP => hn.
    by move=> h i hi; rewrite -hN ?h ?hd //; slia.
  case: eqP => // en; have [a0 a1 a2] : [/\ left <= left <= left, lo <= lo < lo + n & lo <= lo.+1 < lo + n] by split; slia.
  by rewrite -!hN // -!hd.
have h0 : left <= left <= left + 2 * k.+1 by slia.
have h1 : left <= left + 2 * k.+1 <= left + 2 * k.+1 by slia.
have hN' lo' n' : lo <= lo' -> lo' + n' <= lo + n ->
    forall c p, left.+1 <= c <= left.+1 + 2 * k -> lo' <= p < lo' + n' -> N c p = N' c p.
  by move=> b1 b2 c p hc hp; apply: hN; [move: hc|move: hp]; slia.
rewrite !topoS; case: ifP => _.
  case=> a1 a2 a3; split.
  - by move=> i hi; rewrite -hN ?a1 //; slia.
  - by move=> i hi; rewrite -hN ?a2 ?hd //; slia.
  by apply: ih a3 => //; apply: hN'.
case: eqP => [en|_].
  have [a1 a2] : (lo <= lo < lo + n) /\ (lo <= lo.+1 < lo + n) by split; slia.
  by rewrite -!hN // -!hd.
have en := half_eq n.
case=> a1 a2 a3 a4 a5; split.
- move=> i hi x t b; have b1 : lo <= x < lo + n by rewrite /x; slia.
  have b2 : lo <= x.+1 < lo + n by rewrite /x; slia.
  by rewrite -!hN //; apply: a1.
- move=> i hi x; have b1 : lo <= x < lo + n by rewrite /x; slia.
  have b2 : lo <= x.+1 < lo + n by rewrite /x; slia.
  by rewrite -!hN // -!hd //; apply: a2.
- move=> o h; have b1 : lo <= h < lo + n by rewrite /h; have := odd_gt0 o; clear; slia.
  by rewrite -!hN // -!hd //; apply: a3.
- by apply: ih a4 => //; apply: hN'; slia.
- by apply: ih a5 => //; apply: hN'; slia.
Qed.

(** ** What [construct_as_waksman_inner] builds *)
Definition outside (left k lo n c p : nat) := ~~ ((left <= c <= left + 2 * k) && (lo <= p < lo + n)).
Lemma out_c left k lo n c p : (c < left) || (left + 2 * k < c) -> outside left k lo n c p.
Proof. by move=> h; apply/negP => /andP[/andP[h1 h2] _]; case/orP: h; slia. Qed.
Lemma out_p left k lo n c p : (p < lo) || (lo + n <= p) -> outside left k lo n c p.
Proof. by move=> h; apply/negP => /andP[_ /andP[h1 h2]]; case/orP: h; slia. Qed.
Lemma outsideP left k lo n c p c' p' : outside left k lo n c p -> left <= c' <= left + 2 * k -> lo <= p' < lo + n -> (c == c') && (p == p') = false.
Proof. by move=> h h1 h2; case: eqP => // e; case: eqP => // e'; rewrite /outside e e' h1 h2 in h. Qed.

Lemma straight_ok w m left right lo n dests nb : nshape w m nb -> left < w -> right < w -> lo + n <= m -> size dests = n ->
  exists nb', [/\ ofold (aw_straight left right lo dests) nb (iota lo n) = Some nb', nshape w m nb',
    forall c p, ~~ (((c == left) || (c == right)) && (lo <= p < lo + n)) -> nbf nb' c p = nbf nb c p,
    forall i, i < n -> nbf nb' right (lo + i) = (nth 0 dests i, nth 0 dests i) &
    left != right -> forall i, i < n -> nbf nb' left (lo + i) = (lo + i, lo + i)].
Proof.
move=> sh hl hr hm hd.
suff : forall j lo' nb, lo' + j = lo + n -> lo <= lo' -> nshape w m nb -> exists nb',
    [/\ ofold (aw_straight left right lo dests) nb (iota lo' j) = Some nb', nshape w m nb',
    forall c p, ~~ (((c == left) || (c == right)) && (lo' <= p < lo' + j)) -> nbf nb' c p = nbf nb c p,
    forall p, lo' <= p < lo' + j -> nbf nb' right p = (nth 0 dests (p - lo), nth 0 dests (p - lo)) &
    left != right -> forall p, lo' <= p < lo' + j -> nbf nb' left p = (p, p)].
  move=> /(_ n lo nb erefl (leqnn _) sh)[nb' [e1 e2 e3 e4 e5]]; exists nb'; split=> //.
    by move=> i hi; rewrite e4 ?addKn //; slia.
  by move=> hne i hi; apply: e5 => //; slia.
elim=> [|j ih] lo' {sh}nb ej hlo sh /=.
  by exists nb; split=> //; [move=> p|move=> _ p]; slia.
have hp : lo' < m by slia.
have [nb1 [e1 s1 g1]] := aw_nset_ok (lo', lo') sh hl hp.
have hv : lo' - lo < size dests by rewrite hd; slia.
have [nb2 [e2 s2 g2]] := aw_nset_ok (nth 0 dests (lo' - lo), nth 0 dests (lo' - lo)) s1 hr hp.
rewrite /aw_straight e1 /= (vget_nth 0 hv) /= e2 /=.
have [||nb' [e3 s3 f3 v3 i3]] := ih lo'.+1 nb2 _ _ s2; [slia|slia|].
exists nb'; split=> //.
- move=> c p h; rewrite f3; last by apply: contra h => /andP[-> h] /=; slia.
  by rewrite g2 g1; case: (p =P lo') => [e|_]; rewrite ?andbF // !andbT; move: h; rewrite e leqnn addnS ltnS leq_addr !andbT => /norP[/negbTE-> /negbTE->].
- move=> p hp'; case: (p =P lo') => [->|ne]; last by rewrite v3 //; slia.
  by rewrite f3 ?g2 ?eqxx //; apply/negP => /andP[_]; slia.
move=> hne p hp'; case: (p =P lo') => [->|ne]; last by rewrite i3 //; slia.
rewrite f3 ?g2 ?g1 ?eqxx ?(negbTE hne) //; by apply/negP => /andP[_]; slia.
Qed.

Lemma ofold_step (A B : Type) (f : B -> A -> option B) acc x l acc' : f acc x = Some acc' -> ofold f acc (x :: l) = ofold f acc' l.
Proof. by move=> /= ->. Qed.
Lemma switch_outputE n lo i t : i < n %/ 2 -> aw_switch_output n lo (lo + 2 * i) t = Some (lo + i + (if t then 0 else n %/ 2))%N.
Proof.
move=> hi; rewrite /aw_switch_output addKn mulKn // modnMr eqxx /=; have -> // : 2 * i + 1 < n.
by have := half_eq n; slia.
Qed.
Lemma switches_ok w m left right lo n dests nb nd a b : nshape w m nb -> left < w -> right < w -> left != right -> lo + n <= m ->
  size dests = n -> size nd = n -> (a + b = n %/ 2)%N ->
  exists nb' nd', [/\ ofold (aw_switches left right lo n dests) (nb, nd) [seq (lo + 2 * i)%N | i <- iota a b] = Some (nb', nd'),
    nshape w m nb' /\ size nd' = n,
    forall c p, ~~ (((c == left) || (c == right)) && (lo + 2 * a <= p < lo + 2 * (n %/ 2))) -> nbf nb' c p = nbf nb c p,
    forall i, a <= i < n %/ 2 -> let x := (lo + 2 * i)%N in let t := (lo + i)%N in let b := (lo + i + n %/ 2)%N in
      [/\ nbf nb' left x = (t, b), nbf nb' left x.+1 = (b, t), nbf nb' right x = (nth 0 dests (x - lo), nth 0 dests (x.+1 - lo)) &
          nbf nb' right x.+1 = (nth 0 dests (x.+1 - lo), nth 0 dests (x - lo))] &
    (forall i, a <= i < n %/ 2 -> nth 0 nd' i = (lo + 2 * i)%N /\ nth 0 nd' (n %/ 2 + i) = (lo + 2 * i + 1)%N) /\
    (forall j, (j < a) || (n %/ 2 <= j < n %/ 2 + a) || (2 * (n %/ 2) <= j) -> nth 0 nd' j = nth 0 nd j)].
Proof.
move=> sh hl hr hne hm hd; have en := half_eq n; move: (leq_b1 (odd n)) => ob.
elim: b a nb nd sh => [|b ih] a nb nd sh hnd hab.
  exists nb, nd; split=> //; first by move=> i; slia.
  by split=> // i; slia.
have ha : a < n %/ 2 by slia.
have [p0 p1] : lo + 2 * a < m /\ (lo + 2 * a).+1 < m by split; slia.
have [nb1 [e6 s1 g1]] := aw_nset_ok (lo + a, lo + a + n %/ 2)%N sh hl p0.
have [nb2 [e7 s2 g2]] := aw_nset_ok (lo + a + n %/ 2, lo + a)%N s1 hl p1.
have q0 : lo + a - lo < size nd by slia.
have [nd1 [e1 z1 v1]] := vset_ok 0 (lo + 2 * a)%N q0.
have q1 : lo + a + n %/ 2 - lo < size nd1 by rewrite z1; slia.
have [nd2 [e2 z2 v2]] := vset_ok 0 (lo + 2 * a).+1 q1.
have [r0 r1] : lo + 2 * a - lo < size dests /\ (lo + 2 * a).+1 - lo < size dests by split; slia.
have [nb3 [e3 s3 g3]] := aw_nset_ok (nth 0 dests (lo + 2 * a - lo), nth 0 dests ((lo + 2 * a).+1 - lo)) s2 hr p0.
have [nb4 [e4 s4 g4]] := aw_nset_ok (nth 0 dests ((lo + 2 * a).+1 - lo), nth 0 dests (lo + 2 * a - lo)) s3 hr p1.
have hs : aw_switches left right lo n dests (nb, nd) (lo + 2 * a) = Some (nb4, nd2).
  by rewrite /aw_switches /aw_switch_input !switch_outputE //= addn0 e6 /= e7 /= e1 /= e2 /= (vget_nth 0 r0) addn1 /= (vget_nth 0 r1) /= e3 /= e4.
rewrite [iota _ _]/= map_cons (ofold_step _ hs).
have [||nb' [nd' [e5 [s5 s5'] f5 v5 [w5 u5]]]] := ih a.+1 nb4 nd2 s4; [slia|slia|].
exists nb', nd'; rewrite e5; split=> //.
- move=> c p h; rewrite f5; last by apply: contra h => /andP[-> h] /=; slia.
  rewrite g4 g3 g2 g1; move: h; rewrite negb_and => /orP[/norP[/negbTE-> /negbTE->]|h] //.
  have [/negbTE-> /negbTE->] : p != lo + 2 * a /\ p != (lo + 2 * a).+1 by split; apply: contra h => /eqP->; slia.
  by rewrite !andbF.
- move=> i hi x t b'; case: (ltngtP a i) => hai; [by apply: v5; slia|slia|].
  have d1 : ((lo + 2 * a).+1 == lo + 2 * a) = false by apply/eqP; slia.
  have d2 : (lo + 2 * a == (lo + 2 * a).+1) = false by apply/eqP; slia.
  have rl : (right == left) = false by rewrite eq_sym (negbTE hne).
  have out p : p < lo + 2 * a.+1 -> forall c, nbf nb' c p = nbf nb4 c p.
    by move=> hp c; apply: f5; apply/negP => /andP[_]; slia.
  rewrite /b' /t /x -hai; split; rewrite out ?g4 ?g3 ?g2 ?g1 ?eqxx ?d1 ?d2 ?rl ?(negbTE hne) ?andbF ?andbT //=; slia.
split.
- move=> i hi; case: (ltngtP a i) => hai; [by apply: w5; slia|slia|].
  rewrite -hai; rewrite !u5; [|by rewrite leq_addr ltn_add2l ltnSn orbT|by rewrite ltnSn].
  rewrite !v2 !v1.
  have -> : (a == lo + a + n %/ 2 - lo) = false by apply/eqP; slia.
  have -> : (a == lo + a - lo) by slia.
  have -> : (n %/ 2 + a == lo + a + n %/ 2 - lo) by slia.
  by rewrite addn1.
- move=> j hj; rewrite u5; last first.
    by move: hj; clear; case/orP => [/orP[]|] h; apply/orP; [left; apply/orP; left|left; apply/orP; right|right]; slia.
  rewrite v2 v1.
  have -> : (j == lo + a + n %/ 2 - lo) = false by apply/eqP; slia.
  by have -> : (j == lo + a - lo) = false by apply/eqP; slia.
Qed.

Lemma construct_unfold fuel left right lo hi dests nb : construct_as_waksman_inner fuel.+1 left right lo hi dests nb =
  if left > right then Some nb else
    let n := (hi - lo + 1)%N in
    if size dests == n then
    if right - left + 1 >= aw_num_columns n then
    if right - left + 1 > aw_num_columns n then
      obnd (ofold (aw_straight left right lo dests) nb (iota lo n)) (fun nb1 =>
      if right > 0 then construct_as_waksman_inner fuel left.+1 right.-1 lo hi (iota lo n) nb1 else None)
    else if n == 2 then
      obnd (vget dests 0) (fun d0 => obnd (vget dests 1) (fun d1 =>
      obnd (aw_nset nb left lo (d0, d1)) (fun nb1 => aw_nset nb1 left hi (d1, d0))))
    else
      obnd (ofold (aw_switches left right lo n dests) (nb, nseq n 0) [seq (lo + 2 * i)%N | i <- iota 0 (n %/ 2)]) (fun st =>
      obnd (aw_last left right lo hi n dests st) (fun '(nb1, nd) =>
      if (0 < n %/ 2) && (0 < right) then
        obnd (construct_as_waksman_inner fuel left.+1 right.-1 lo (lo + n %/ 2 - 1) (take (n %/ 2) nd) nb1) (fun nb' =>
        construct_as_waksman_inner fuel left.+1 right.-1 (lo + n %/ 2) hi (drop (n %/ 2) nd) nb')
      else None))
    else None else None.
Proof. by []. Qed.
Lemma construct_done fuel left right lo hi dests nb : right < left -> construct_as_waksman_inner fuel left right lo hi dests nb = Some nb.
Proof. by case: fuel => [|fuel] /= ->. Qed.

Lemma last_ok w m left right lo n dests nb nd : nshape w m nb -> left < w -> right < w -> left != right -> lo + n <= m -> 2 < n ->
  size dests = n -> size nd = n ->
  exists nb' nd', [/\ aw_last left right lo (lo + n - 1) n dests (nb, nd) = Some (nb', nd'), nshape w m nb' /\ size nd' = n,
    forall c p, ~~ (((c == left) || (odd n && (c == right))) && (lo + n - 1 - ~~ odd n <= p < lo + n)) -> nbf nb' c p = nbf nb c p,
    forall j, ~~ odd n || (j != n - 1) -> nth 0 nd' j = nth 0 nd j &
    if odd n then let h := (lo + n - 1)%N in [/\ nbf nb' left h = (h, h), nbf nb' right h = (nth 0 dests (h - lo), nth 0 dests (h - lo)) &
        nth 0 nd' (n - 1) = h]
    else forall j, j < 2 -> let h := (lo + n - 1 - j)%N in nbf nb' left h = ((nbf nb left h).1, (nbf nb left h).1)].
Proof.
move=> sh hl hr hne hm hn hd hnd; rewrite /aw_last; case o: (odd n) => /=.
  have p0 : lo + n - 1 < m by slia.
  have [nb1 [e1 s1 g1]] := aw_nset_ok (lo + n - 1, lo + n - 1)%N sh hl p0.
  have v : lo + n - 1 - lo < size dests by slia.
  have [nb2 [e2 s2 g2]] := aw_nset_ok (nth 0 dests (lo + n - 1 - lo), nth 0 dests (lo + n - 1 - lo)) s1 hr p0.
  have v' : lo + n - 1 - lo < size nd by slia.
  have [nd1 [e3 z3 g3]] := vset_ok 0 (lo + n - 1)%N v'.
  rewrite e1 /= (vget_nth 0 v) /= e2 /= e3 /=; exists nb2, nd1; split=> //.
  - by rewrite z3.
  - move=> c p h; rewrite g2 g1; case: (p =P (lo + n - 1)%N) => [e|_]; rewrite ?andbF // !andbT.
    move: h; rewrite e subn0 leqnn /=; have -> : lo + n - 1 < lo + n by slia.
    by rewrite andbT => /norP[/negbTE-> /negbTE->].
  - by move=> j hj; rewrite g3; have -> : (j == lo + n - 1 - lo) = false by apply/eqP; slia.
  split; rewrite ?g3 ?g2 ?g1 ?eqxx ?(negbTE hne) ?andbF //=.
  by have -> : n - 1 == lo + n - 1 - lo by slia.
have [p0 p1] : lo + n - 1 < m /\ lo + n - 1 - 1 < m by split; slia.
have [sz1 sz2] := sh.
rewrite (vget_nth [::]) ?sz1 //= (vget_nth (0, 0)) ?sz2 //= (vget_nth (0, 0)) ?sz2 //= -/(nbf nb left (lo + n - 1)) -/(nbf nb left (lo + n - 1 - 1)).
have [nb1 [-> s1 g1]] := aw_nset_ok ((nbf nb left (lo + n - 1 - 1)).1, (nbf nb left (lo + n - 1 - 1)).1) sh hl p1.
have [nb2 [e2 s2 g2]] := aw_nset_ok ((nbf nb left (lo + n - 1)).1, (nbf nb left (lo + n - 1)).1) s1 hl p0.
rewrite /= e2 /=; exists nb2, nd; split=> //.
- move=> c p; rewrite orbF g2 g1; case: (c == left) => //= h.
  have [/negbTE-> /negbTE->] // : p != (lo + n - 1)%N /\ p != (lo + n - 1 - 1)%N.
  by split; apply: contra h => /eqP->; slia.
- case=> [|[|]] //= _; rewrite g2 g1 ?subn0 !eqxx //.
  by have -> : (lo + n - 1 - 1 == lo + n - 1) = false by apply/eqP; slia.
Qed.

Lemma topo0 N left lo n dest : topo N 0 left lo n dest =
  if n <= 1 then forall i, i < n -> N left (lo + i) = (dest (lo + i), dest (lo + i))
  else if n == 2 then N left lo = (dest lo, dest lo.+1) /\ N left lo.+1 = (dest lo.+1, dest lo) else False.
Proof. by []. Qed.
Local Arguments topo : simpl never.
Local Arguments aw_last : simpl never.
Local Arguments construct_as_waksman_inner : simpl never.
Lemma construct_ok w m fuel k left lo n dests nb : k < fuel -> nshape w m nb -> left + 2 * k < w -> lo + n <= m -> 0 < n -> (0 < left) || (1 < n) ->
  n <= 2 ^ k.+1 -> size dests = n ->
  exists nb', [/\ construct_as_waksman_inner fuel left (left + 2 * k) lo (lo + n - 1) dests nb = Some nb', nshape w m nb',
    forall c p, outside left k lo n c p -> nbf nb' c p = nbf nb c p &
    topo (nbf nb') k left lo n (fun p => nth 0 dests (p - lo))].
Proof.
elim: k fuel left lo n dests nb => [|k ih] [|fuel] left lo n dests nb hf sh hw hm hn hln hk hd //.
  rewrite construct_unfold muln0 addn0 in hw *; cbv zeta.
  have -> : (lo + n - 1 - lo + 1 = n)%N by slia.
  rewrite ltnn hd eqxx.
  have -> : left - left + 1 = 2 * 0 + 1 by slia.
  rewrite (ncol_le 0 hn) (ncol_lt 0 hn) expn1 expn0; rewrite expn1 in hk; rewrite hk.
  case: ifP => h1.
    have en : n = 1 by slia.
    have [nb' [e1 s1 f1 v1 _]] := straight_ok sh hw hw hm hd.
    rewrite e1 /=; have -> : 0 < left by slia.
    rewrite construct_done; last by slia.
    exists nb'; split=> //.
    + move=> c p; rewrite /outside muln0 addn0 => h; rewrite f1 //; by apply: contra h => /andP[/orP[]/eqP-> ->]; rewrite leqnn.
    + by rewrite topo0 h1 => i hi; rewrite v1 // addKn.
  have en : n = 2 by slia.
  rewrite en eqxx in hd hm *.
  have [p0 p1] : lo < m /\ lo + 2 - 1 < m by split; slia.
  have [nb1 [e1 s1 g1]] := aw_nset_ok (nth 0 dests 0, nth 0 dests 1) sh hw p0.
  have [nb2 [e2 s2 g2]] := aw_nset_ok (nth 0 dests 1, nth 0 dests 0) s1 hw p1.
  rewrite !(vget_nth 0) ?hd //= e1 /= e2; exists nb2; split=> //.
  - move=> c p; rewrite /outside muln0 addn0 => h; rewrite g2 g1.
    case: (c =P left) => [ec|] //=; have [/negbTE-> /negbTE->] // : p != (lo + 2 - 1)%N /\ p != lo.
    by split; apply: contra h => /eqP->; slia.
  - rewrite topo0 /= !g2 !g1 !eqxx /= subnn.
    have -> : (lo == lo + 2 - 1) = false by apply/eqP; slia.
    have -> : (lo.+1 == lo + 2 - 1) by slia.
    by have -> : (lo.+1 - lo = 1)%N by slia.
rewrite construct_unfold; cbv zeta.
have -> : (lo + n - 1 - lo + 1 = n)%N by slia.
have -> : (left + 2 * k.+1 < left) = false by slia.
rewrite hd eqxx.
have -> : (left + 2 * k.+1 - left + 1 = 2 * k.+1 + 1)%N by slia.
rewrite (ncol_le k.+1 hn) (ncol_lt k.+1 hn) hk.
have [hl hr] : left < w /\ left + 2 * k.+1 < w by split; slia.
have hne : left != left + 2 * k.+1 by slia.
have e0 : (left + 2 * k.+1).-1 = left.+1 + 2 * k by slia.
have hr0 : 0 < left + 2 * k.+1 by slia.
have hw' : left.+1 + 2 * k < w by slia.
case: ifP => h1.
  have [nb1 [e1 s1 f1 v1 i1]] := straight_ok sh hl hr hm hd.
  rewrite e1 /= hr0 e0.
  have [nb2 [e2 s2 f2 t2]] := ih fuel left.+1 lo n (iota lo n) nb1 hf s1 hw' hm hn isT h1 (size_iota _ _).
  exists nb2; rewrite topoS h1; split=> //.
  - move=> c p h; rewrite f2 ?f1 //.
      by apply: contra h => /andP[/orP[]/eqP-> ->]; rewrite andbT; slia.
    by apply: contra h => /andP[h ->]; rewrite andbT; slia.
  split.
  - move=> i hi; rewrite f2 ?i1 //; by apply: out_c; rewrite ltnSn.
  - move=> i hi; rewrite f2 ?v1 ?addKn //; apply: out_c; apply/orP; right; slia.
  by apply: topo_ext t2 => // p hp; rewrite nth_iota ?subnKC //; slia.
have n2 : 2 < n.
  rewrite ltnNge; apply/negP => h; move: h1; rewrite (leq_trans h) //.
  by rewrite expnS -{1}(muln1 2) leq_mul2l expn_gt0.
have n22 : (n == 2) = false by slia.
rewrite n22.
have [d1 d2] := half_le hk; have en := half_eq n; have ob := leq_b1 (odd n).
have dpos : 0 < n %/ 2 by slia.
have snd : size (nseq n 0) = n by rewrite size_nseq.
have [nb1 [nd1 [-> [s1 z1] f1 v1 [w1 u1]]]] := switches_ok sh hl hr hne hm hd snd (add0n (n %/ 2)).
have [nb2 [nd2 [e2 [s2 z2] f2 w2 v2]]] := last_ok s1 hl hr hne hm n2 hd z1.
rewrite /= e2 /= dpos hr0 e0 /=.
have z3 : size (take (n %/ 2) nd2) = n %/ 2 by rewrite size_takel // z2; slia.
have z4 : size (drop (n %/ 2) nd2) = n - n %/ 2 by rewrite size_drop z2.
have [|nb3 [-> s3 f3 t3]] := ih fuel left.+1 lo (n %/ 2) _ nb2 hf s2 hw' _ dpos isT d1 z3; first slia.
have eh : lo + n - 1 = lo + n %/ 2 + (n - n %/ 2) - 1 by slia.
have [||nb4 [e4 s4 f4 t4]] := ih fuel left.+1 (lo + n %/ 2) (n - n %/ 2) _ nb3 hf s3 hw' _ _ isT d2 z4; [slia|slia|].
rewrite /= eh e4; exists nb4; rewrite topoS h1 n22.
have nd_ok r : lo <= r < lo + n -> nth 0 nd2 (r - lo) = newdest lo n r.
  move=> hr'; rewrite /newdest; case: ltnP => hj.
    rewrite w2; last by apply/orP; right; slia.
    by case: (w1 (r - lo)); slia.
  case: ifP => [/andP[o /eqP ej]|hno].
    by rewrite ej; move: v2; rewrite o => -[_ _ ->]; slia.
  rewrite w2; last by move: hno; case: (odd n) => //= ->.
  have hi : 0 <= r - lo - n %/ 2 < n %/ 2.
    by rewrite leq0n /=; move: hno en hr' hj dpos; clear; move: (n %/ 2) => d; case: (odd n) => /=; slia.
  have [_ h3] := w1 _ hi.
  by rewrite -h3; congr nth; slia.
have fr c p : (c == left) || (c == left + 2 * k.+1) -> nbf nb4 c p = nbf nb2 c p.
  move=> hc; rewrite f4 ?f3 //; apply: out_c; case/orP: hc => /eqP->; apply/orP; [left|right|left|right]; slia.
split=> //.
- move=> c p h; rewrite f4 ?f3 ?f2 ?f1 //; apply: contra h => /andP[a1 a2]; apply/andP; split; move: a1 a2;
    first [slia | by case/orP => /eqP->; slia | by case/orP => [/eqP->|/andP[_ /eqP->]]; slia | by move=> _; case: (odd n) => /=; slia].
split.
- move=> i hi x t b; have [a1 a2 _ _] := v1 i hi.
  have hf2 c p : p < lo + n - 1 - ~~ odd n -> nbf nb2 c p = nbf nb1 c p.
    by move=> hp; apply: f2; apply/negP => /andP[_]; slia.
  rewrite !fr ?eqxx //; case: ifP => [/andP[o /eqP ei]|hno].
    move: v2; rewrite (negbTE o) => v2.
    have ex : x = lo + n - 1 - 1 by move: en o; rewrite /x; case: (odd n) => //=; slia.
    have ex1 : x.+1 = lo + n - 1 - 0 by move: en o; rewrite /x; case: (odd n) => //=; slia.
    by rewrite ex1 {1}ex !v2 // -ex1 -ex a1 a2.
  have hx : x.+1 < lo + n - 1 - ~~ odd n by move: hno en hi; rewrite /x; case: (odd n) => /=; slia.
  by rewrite !hf2 // ltnW.
- move=> i hi x; have [_ _ a1 a2] := v1 i hi.
  have hf2 p : p <= x.+1 -> nbf nb2 (left + 2 * k.+1) p = nbf nb1 (left + 2 * k.+1) p.
    move=> hp; apply: f2; apply/negP; rewrite eq_sym (negbTE hne) eqxx andbT /= => /andP[o].
    by move: hp en; rewrite /x o /=; slia.
  by rewrite !fr ?eqxx ?orbT // !hf2.
- by move=> o h; move: v2; rewrite o => -[a1 a2 _]; rewrite !fr ?eqxx ?orbT.
- apply: topo_ext t3.
    by move=> c p hc hp; rewrite f4 //; apply: out_p; apply/orP; left; slia.
  by move=> p hp; rewrite nth_take ?nd_ok //; slia.
- apply: topo_ext t4 => // p hp; rewrite nth_drop -nd_ok; last by slia.
  by congr nth; slia.
Qed.

Lemma topology_ok n : 1 < n -> exists nb, [/\ generate_as_waksman_topology n = Some nb, nshape (aw_num_columns n) n nb,
  aw_num_columns n = (2 * (up_log 2 n).-1 + 1)%N & topo (nbf nb) (up_log 2 n).-1 0 0 n id].
Proof.
move=> hn; have hu : 0 < up_log 2 n by rewrite up_log_gt0.
have ec : aw_num_columns n = (2 * (up_log 2 n).-1 + 1)%N by rewrite /aw_num_columns hn; slia.
rewrite /generate_as_waksman_topology hn ec.
have -> : 0 < 2 * (up_log 2 n).-1 + 1 by slia.
have sh : nshape (2 * (up_log 2 n).-1 + 1) n (nseq (2 * (up_log 2 n).-1 + 1) (nseq n (0, 0))).
  by split; rewrite ?size_nseq // => c hc; rewrite nth_nseq hc size_nseq.
have hk : n <= 2 ^ (up_log 2 n).-1.+1 by rewrite prednK //; apply: up_logP.
have [|||||nb [e1 e2 _ e4]] := @construct_ok _ _ (2 * (up_log 2 n).-1 + 1) (up_log 2 n).-1 0 0 n (iota 0 n) _ _ sh _ _ _ _ hk (size_iota _ _); rewrite ?add0n //; try slia.
exists nb; move: e1; rewrite !add0n !addnK => e1; split=> //.
by apply: topo_ext e4 => // p hp; rewrite subn0 nth_iota //; slia.
Qed.
