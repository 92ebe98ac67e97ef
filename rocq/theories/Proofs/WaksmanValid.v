(** The validator of AS-Waksman routings, and the computed routing. *)
From mathcomp Require Import all_ssreflect.
From Verif.Model Require Import Base OrderedMap IntegerPermutation AsWaksman.
From Verif.Proofs Require Import NatTac PermProofs BenesProofs WaksmanTopology WaksmanLevel WaksmanLoop WaksmanRoute WaksmanRecursion WaksmanWalk.
Set Implicit Arguments.
Unset Strict Implicit.
Unset Printing Implicit Defensive.
Local Arguments settings : simpl never.
Local Arguments topo : simpl never.
Local Notation walk := WaksmanWalk.walk.
Local Arguments WaksmanWalk.walk : simpl never.

Lemma aw_moveE w n nb rt c p : nshape w n nb -> size rt = w -> c < w -> p < n ->
  aw_move (nth [::] nb c) (nth [::] rt c) p = wmv (nbf nb) (rf rt) c p.
Proof.
move=> [s1 s2] sr hc hp; rewrite /aw_move (vget_nth (0, 0)) ?s2 //= /wmv -/(nbf nb c p); case: ifP => // _.
Qed.
Lemma ofold_eq_in (A : eqType) (B : Type) (f g : B -> A -> option B) l b : (forall acc x, x \in l -> f acc x = g acc x) ->
  ofold f b l = ofold g b l.
Proof.
elim: l b => [|x l ih] b h //=; rewrite h ?mem_head //; case: (g b x) => //= b'.
by apply: ih => acc y hy; apply: h; rewrite inE hy orbT.
Qed.

(** one column of the validator *)
Lemma column_ok n cur (mv : nat -> option nat) f : 0 < n -> ip_wf cur -> ip_min cur = 0 -> ip_max cur = (n - 1)%N ->
  (forall p, p < n -> mv p = Some (f p) /\ f p < n) -> (forall p p', p < n -> p' < n -> f p = f p' -> p = p') ->
  exists nxt, [/\ ofold (fun nextperm packet_idx => obnd (mv packet_idx) (fun dest => obnd (ip_get cur packet_idx) (fun x => ip_set nextperm dest x)))
      (ip_of_size n) (iota 0 n) = Some nxt, ip_wf nxt, ip_min nxt = 0, ip_max nxt = (n - 1)%N & forall p, p < n -> ip_get nxt (f p) = ip_get cur p].
Proof.
move=> hn wc mc xc hmv inj.
have w0 : ip_wf (ip_of_size n) by rewrite /ip_wf /= size_iota /ip_size /=; split=> //; slia.
suff H m c nxt : (c + m = n)%N -> ip_wf nxt -> ip_min nxt = 0 -> ip_max nxt = (n - 1)%N -> (forall p, p < c -> ip_get nxt (f p) = ip_get cur p) ->
   exists nxt', [/\ ofold (fun nextperm packet_idx => obnd (mv packet_idx) (fun dest => obnd (ip_get cur packet_idx) (fun x => ip_set nextperm dest x)))
      nxt (iota c m) = Some nxt', ip_wf nxt', ip_min nxt' = 0, ip_max nxt' = (n - 1)%N & forall p, p < n -> ip_get nxt' (f p) = ip_get cur p].
  by apply: H.
elim: m c nxt => [|m ih] c nxt ec w1 m1 x1 h; first by exists nxt; split=> // p hp; apply: h; slia.
have hc : c < n by slia.
have [e1 hf] := hmv c hc.
have hcr : ip_min cur <= c <= ip_max cur by rewrite mc xc; slia.
have hfr : ip_min nxt <= f c <= ip_max nxt by rewrite m1 x1; slia.
have ec' := ip_get_in wc hcr.
have [nxt1 [e2 w2 m2 x2 g2]] := ip_set_ok (nth 0 (ip_contents cur) (c - ip_min cur)) w1 hfr.
have hs : obnd (mv c) (fun dest => obnd (ip_get cur c) (fun x => ip_set nxt dest x)) = Some nxt1 by rewrite e1 /= ec' /= e2.
rewrite [iota _ _]/= (ofold_step _ hs); apply: ih => //; first by rewrite addSnnS.
- by rewrite m2.
- by rewrite x2.
move=> p; rewrite ltnS => hp; have hp' : p < n by slia.
have [_ hfp] := hmv p hp'.
rewrite g2; last by rewrite m1 x1; slia.
case: eqP => [e|ne]; first by rewrite (inj _ _ hp' hc e) ec'.
by apply: h; case: (ltngtP p c) hp => // e; rewrite e in ne.
Qed.

(** the columns move the packets without collisions *)
Definition moves (N : nat -> nat -> nat * nat) (R : nat -> nat -> option bool) (w n : nat) :=
  forall c, c < w -> exists f, (forall p, p < n -> wmv N R c p = Some (f p) /\ f p < n) /\ (forall p p', p < n -> p' < n -> f p = f p' -> p = p').

Lemma moves_walk N R w n : moves N R w n -> forall m, m <= w -> exists g, [/\ forall x, x < n -> walk N R m 0 x = Some (g x), forall x, x < n -> g x < n &
  forall x x', x < n -> x' < n -> g x = g x' -> x = x'].
Proof.
move=> mv; elim=> [|m ih] hm; first by exists id.
have [g [g1 g2 g3]] := ih (ltnW hm); have [f [f1 f2]] := mv m hm.
exists (f \o g); split=> [x hx|x hx|x x' hx hx' /= e].
- rewrite -addn1 walk_add g1 // add0n [obnd (Some _) _]/= -/(walk _ _ 1 m (g x)) walk1; by case: (f1 _ (g2 _ hx)) => ->.
- by case: (f1 _ (g2 _ hx)).
by apply: g3 => //; apply: f2 e; apply: g2.
Qed.

Lemma valid_ok n nb rt p : 1 < n -> ip_wf p -> ip_min p = 0 -> ip_max p = (n - 1)%N -> ip_is_valid p ->
  generate_as_waksman_topology n = Some nb -> nshape (aw_num_columns n) n nb -> size rt = aw_num_columns n ->
  moves (nbf nb) (rf rt) (aw_num_columns n) n ->
  exists b, valid_as_waksman_routing p rt = Some b /\
    (b <-> forall i j, ip_get p i = Some j -> walk (nbf nb) (rf rt) (aw_num_columns n) 0 i = Some j).
Proof.
move=> hn wf mn mx va et sh sr mv.
have asz : ip_size p = n by rewrite /ip_size mn mx; slia.
have n0 : 0 < n by slia.
rewrite /valid_as_waksman_routing asz et [obnd (Some nb) _]/=.
set w := aw_num_columns n in sh sr mv *.
have w0 : ip_wf (ip_of_size n) by rewrite /ip_wf /= size_iota /ip_size /=; split=> //; slia.
set F := (X in ofold X).
suff H m c cur : (c + m = w)%N -> ip_wf cur -> ip_min cur = 0 -> ip_max cur = (n - 1)%N ->
    (forall x y, x < n -> walk (nbf nb) (rf rt) c 0 x = Some y -> ip_get cur y = Some x) ->
    exists fin, [/\ ofold F cur (iota c m) = Some fin, ip_wf fin, ip_min fin = 0, ip_max fin = (n - 1)%N &
      forall x y, x < n -> walk (nbf nb) (rf rt) w 0 x = Some y -> ip_get fin y = Some x].
  have [|fin [-> wfin mfin xfin gfin]] := H w 0%N (ip_of_size n) (add0n _) w0 erefl erefl.
    move=> x y hx [<-]; rewrite (ip_get_in w0); last by rewrite /=; slia.
    by rewrite /= subn0 nth_iota.
  have [inv [ei wi mi xi gi]] := ip_inverse_ok wf va.
  rewrite [obnd (Some fin) _]/= ei [obnd (Some _) _]/=; eexists; split; first by reflexivity.
  have [g [g1 g2 g3]] := moves_walk mv (leqnn w).
  have inr x : x < n -> ip_min p <= x <= ip_max p by rewrite mn mx; slia.
  have inr' x : ip_min p <= x <= ip_max p -> x < n by rewrite mn mx; slia.
  split.
    move=> /eqP efin i j ej; have hi := inr' _ (ip_get_some ej).
    rewrite g1 //; congr Some.
    have h1 : ip_get fin (g i) = Some i by apply: gfin => //; apply: g1.
    rewrite efin in h1.
    have [j' [hj' ej' ei']] := gi _ (inr _ hi); rewrite ej in ej'; case: ej' => ej'; rewrite -ej' in ei' hj'.
    have [x0 [hx0 ex0 ei0]] : exists x0, [/\ ip_min p <= x0 <= ip_max p, ip_get p x0 = Some (g i) & ip_get inv (g i) = Some x0].
      have [x0 e0] := ip_valid_surj wf va (inr _ (g2 _ hi)); have [j0 [_ a b]] := gi _ (ip_get_some e0).
      by exists x0; rewrite e0 in a; case: a => a; rewrite a; split=> //; [apply: (ip_get_some e0)|rewrite e0 a].
    by move: h1; rewrite ei0 => -[e0]; move: ex0; rewrite e0 ej => -[].
  move=> h; apply/eqP; apply: ip_eq => //; rewrite ?mi ?xi ?mfin ?xfin ?mn ?mx // => y hy.
  have hy' : ip_min p <= y <= ip_max p by rewrite mn mx.
  have [x ex] := ip_valid_surj wf va hy'; have hx := inr' _ (ip_get_some ex).
  rewrite (gfin x y hx (h _ _ ex)).
  have [j' [_ a b]] := gi _ (inr _ hx); by rewrite ex in a; case: a => ->.
elim: m c cur => [|m ih] c cur ec wc mc xc gc.
  by exists cur; split=> //; rewrite -ec addn0.
have hc : c < w by slia.
have [s1 s2] := sh.
have [f [f1 f2]] := mv c hc.
have [nxt [e1 w1 m1 x1 g1]] := column_ok n0 wc mc xc f1 f2.
have hF : F cur c = Some nxt.
  rewrite /F (vget_nth [::]) ?s1 //= (vget_nth [::]) ?sr //= -e1.
  apply: ofold_eq_in => acc x; rewrite mem_iota add0n => hx; by rewrite (aw_moveE sh sr hc hx).
rewrite [iota _ _]/= (ofold_step _ hF); apply: ih => //; first by rewrite addSnnS.
move=> x y hx; rewrite -addn1 walk_add add0n.
have [g [gg1 gg2 _]] := moves_walk mv (ltnW hc).
rewrite gg1 // [obnd (Some _) _]/= -/(walk _ _ 1 c (g x)) walk1; have [-> hlt] := f1 _ (gg2 _ hx); case=> <-.
by rewrite g1 ?gg2 //; apply: gc => //; apply: gg1.
Qed.

(** ** With every switch straight, every column permutes the rows *)
Definition inj_on (lo n : nat) (f : nat -> nat) := forall r r', lo <= r < lo + n -> lo <= r' < lo + n -> f r = f r' -> r = r'.
Lemma newdest_inj lo n : inj_on lo n (newdest lo n).
Proof.
move=> r r' hr hr'; rewrite /newdest; have := half_eq n; move: (n %/ 2) => d en.
move: en; case: (odd n) => /= en; case: ltnP => h1; case: ltnP => h2; try (case: eqP => h3); try (case: eqP => h4); slia.
Qed.
Lemma topo_straight N k left lo n dest : topo N k left lo n dest -> forall c, left <= c <= left + 2 * k ->
  exists f, [/\ forall r, lo <= r < lo + n -> (N c r).1 = if c == (left + 2 * k)%N then dest (f r) else f r, maps lo n f & inj_on lo n f].
Proof.
elim: k left lo n dest => [|k ih] left lo n dest ht c hc.
  have ec : c = left by slia.
  exists id; split=> // r hr; rewrite ec muln0 addn0 eqxx; move: ht; rewrite topo0; case: leqP => h1.
    move=> h; have hlt : r - lo < n by slia.
    have er : (lo + (r - lo) = r)%N by slia.
    by have := h _ hlt; rewrite er => ->.
  case: eqP => // en [e1 e2].
  have [->|->] : r = lo \/ r = lo.+1 by slia.
    by rewrite e1.
  by rewrite e2.
have hlast : (left == left + 2 * k.+1)%N = false by slia.
move: ht; rewrite topoS; case: ifP => hk.
  case=> a1 a2 a3; have er r : lo <= r < lo + n -> (lo + (r - lo) = r)%N by slia.
  have hlt r : lo <= r < lo + n -> r - lo < n by slia.
  case: (c =P left) => [->|c1].
    by exists id; split=> // r hr; rewrite hlast; have := a1 _ (hlt _ hr); rewrite er // => ->.
  case: (c =P (left + 2 * k.+1)%N) => [->|c2].
    by exists id; split=> // r hr; have := a2 _ (hlt _ hr); rewrite er // => ->.
  have [|f [f1 f2 f3]] := ih _ _ _ _ a3 c; first by slia.
  by exists f; split=> // r hr; rewrite f1 //; case: ifP.
have [-> n2] := pow_n2 hk; have en := half_eq n; have ob := leq_b1 (odd n).
case=> a1 a2 a3 a4 a5.
have form r : lo <= r < lo + n -> (odd n /\ r = lo + n - 1)%N \/ exists i (b : bool), r = (lo + 2 * i + b)%N /\ i < n %/ 2.
  move=> hr; case: (boolP (odd n && (r == lo + n - 1)%N)) => [/andP[ho /eqP eh]|hne]; first by left.
  right; exists ((r - lo) %/ 2), (odd (r - lo)); have := half_eq (r - lo); move: hne en hr.
  by move: ((r - lo) %/ 2) (odd (r - lo)) (n %/ 2) => q b d; case: (odd n) b => -[] /= *; split; slia.
case: (c =P left) => [->|c1].
  have v i (b : bool) : i < n %/ 2 -> (N left (lo + 2 * i + b)).1 = (lo + i + (if b then n %/ 2 else 0))%N.
    by move=> hi; have := a1 i hi; case: b; rewrite /= ?addn0 ?addn1; case: ifP => _ [v1 v2]; rewrite ?v1 ?v2.
  exists (fun r => (N left r).1); rewrite hlast; split=> // [r hr|r r' hr hr'].
    case: (form _ hr) => [[ho ->]|[i [b [-> hi]]]].
      by case: (a3 ho) => -> _ /=; slia.
    by rewrite v //; case: b; slia.
  case: (form _ hr) => [[ho ->]|[i [b [-> hi]]]]; case: (form _ hr') => [[ho' ->]|[i' [b' [-> hi']]]] //; rewrite ?v //.
  - by case: (a3 ho) => -> _ /=; move: en; rewrite ho /=; case: (b') => /=; slia.
  - by case: (a3 ho') => -> _ /=; move: en; rewrite ho' /=; case: (b) => /=; slia.
  - by case: (b); case: (b') => /= e; slia.
case: (c =P (left + 2 * k.+1)%N) => [->|c2].
  exists id; split=> // r hr.
  case: (form _ hr) => [[ho ->]|[i [b [-> hi]]]]; first by case: (a3 ho) => _ ->.
  by case: (a2 i hi) => e1 e2; case: b {hr}; rewrite ?addn1 ?addn0 ?e1 ?e2.
have hc' : left.+1 <= c <= left.+1 + 2 * k by slia.
have [f [f1 f2 f3]] := ih _ _ _ _ a4 c hc'; have [g [g1 g2 g3]] := ih _ _ _ _ a5 c hc'.
pose h r := if r < lo + n %/ 2 then f r else g r.
have up r : lo <= r < lo + n -> r < lo + n %/ 2 -> lo <= r < lo + n %/ 2 by slia.
have dn r : lo <= r < lo + n -> (r < lo + n %/ 2) = false -> lo + n %/ 2 <= r < lo + n %/ 2 + (n - n %/ 2) by slia.
have hm : maps lo n h.
  move=> r hr; rewrite /h; case: ifP => hlt; first by have := f2 _ (up _ hr hlt); slia.
  by have := g2 _ (dn _ hr hlt); slia.
have hi : inj_on lo n h.
  move=> r r' hr hr'; rewrite /h; case: ifP => h1; case: ifP => h2 e.
  - by apply: f3 e; apply: up.
  - by have := f2 _ (up _ hr h1); have := g2 _ (dn _ hr' h2); rewrite e; slia.
  - by have := f2 _ (up _ hr' h2); have := g2 _ (dn _ hr h1); rewrite e; slia.
  - by apply: g3 e; apply: dn.
have hN r : lo <= r < lo + n -> (N c r).1 = if c == (left.+1 + 2 * k)%N then newdest lo n (h r) else h r.
  by move=> hr; rewrite /h; case: ifP => hlt; case: (ltnP r (lo + n %/ 2)) => h'; [rewrite f1|rewrite g1|rewrite f1|rewrite g1]; rewrite ?hlt //; try exact: up; try (apply: dn => //; slia).
exists (fun r => if c == (left.+1 + 2 * k)%N then newdest lo n (h r) else h r); split.
- by move=> r hr; rewrite hN //; case: ifP.
- by move=> r hr; case: ifP => _; [apply: newdest_range|]; apply: hm.
- by move=> r r' hr hr'; case: ifP => _ e; apply: hi => //; apply: newdest_inj e; apply: hm.
Qed.

(** ** Consistent settings: the switch of a pair of rows is recorded under the upper one *)
Definition is_switch (N : nat -> nat -> nat * nat) c r := ((N c r).1 != (N c r).2) && (N c r.+1 == ((N c r).2, (N c r).1)).
Lemma consistent_moves N R k n : topo N k 0 0 n id -> (forall c r, c <= 2 * k -> r < n -> isSome (R c r) = (r.+1 < n) && is_switch N c r) ->
  moves N R (2 * k + 1) n.
Proof.
move=> ht hR c; rewrite addn1 ltnS => hc.
have [|f [f1 f2 f3]] := topo_straight ht (c := c); first by rewrite add0n.
have s1 r : r < n -> (N c r).1 = f r by move=> hr; rewrite f1 //; case: ifP.
have wire r : r < n -> exists r', [/\ r' < n, N c r' = ((N c r).2, (N c r).1), [|| r' == r.+1, r == r'.+1 | (r' == r) && ((N c r).1 == (N c r).2)] & (N c r).1 < n /\ (N c r).2 < n].
  move=> hr; have [r' [h1 h2 h3 h4 h5]] : wired N 0 n c r (fun q => q < n) by apply: (topo_wired ht).
  by exists r'.
have swapE r r' : N c r' = ((N c r).2, (N c r).1) -> N c r = ((N c r').2, (N c r').1) by move=> ->; case: (N c r).
have eqN r r' : r < n -> r' < n -> N c r = N c r' -> r = r' by move=> hr hr' e; apply: f3 => //; rewrite -!s1 // e.
have nosw r : r.+2 < n -> is_switch N c r -> is_switch N c r.+1 -> False.
  move=> hr /andP[_ /eqP e1] /andP[_ /eqP e2]; have : r.+2 = r.
    by apply: eqN => //; [slia|rewrite e2 e1; case: (N c r)].
  by slia.
(* the setting used by row [r] *)
have use r : r < n -> (N c r).1 != (N c r).2 -> exists r' s, [/\ r' < n, N c r' = ((N c r).2, (N c r).1), (N c r').1 != (N c r').2, (r' == r.+1) && (R c r == Some s) || (r == r'.+1) && (R c r' == Some s) &
    wmv N R c r = Some (if s then (N c r).2 else (N c r).1)].
  move=> hr hne; have [r' [h1 h2 h3 _]] := wire r hr; rewrite (negbTE hne) andbF orbF in h3.
  have hne' : (N c r').1 != (N c r').2 by rewrite h2 /= eq_sym.
  have eN : N c r = ((N c r).1, (N c r).2) by case: (N c r).
  case/orP: h3 => /eqP er.
    have sw : is_switch N c r by rewrite /is_switch hne -er h2 /=.
    have : isSome (R c r) by rewrite hR // -er h1 sw.
    case es: (R c r) => [s|] // _; exists r', s; split=> //; first by rewrite er !eqxx.
    apply: (wmv_top eN es).
    case: r hr {hne h2 eN es} er sw => [|r] hr er sw //=.
    case e0: (R c r) => [s0|] //; exfalso; have := hR c r hc (ltnW hr); rewrite e0 /= => /esym /andP[_ sw0].
    by apply: (nosw r) => //; rewrite -er.
  have sw : is_switch N c r' by rewrite /is_switch hne' -er h2 /=; case: (N c r).
  have : isSome (R c r') by rewrite hR // -er hr sw.
  case es: (R c r') => [s|] // _; exists r', s; split=> //; first by rewrite er es !eqxx orbT.
  rewrite {1}er; rewrite {1}er in eN; apply: (wmv_bot eN _ es).
  case e0: (R c r'.+1) => [s0|] //; exfalso; rewrite -er in e0; have := hR c r hc hr; rewrite e0 /= => /esym /andP[hlt sw0].
  by apply: (nosw r') => //; rewrite -er.
have tot r : r < n -> exists q, [/\ wmv N R c r = Some q, q < n & exists r', [/\ r' < n, q = f r' & r' = r \/ [/\ (N c r).1 != (N c r).2, N c r' = ((N c r).2, (N c r).1) & wmv N R c r = Some (N c r').1]]].
  move=> hr; case: (eqVneq (N c r).1 (N c r).2) => [e|hne].
    exists (N c r).1; split; [by apply: wmv_const; rewrite {2}e; case: (N c r)|by case: (wire r hr) => ? [_ _ _ []]|].
    by exists r; split=> //; [apply: s1|left].
  have [r' [s [h1 h2 h3 h4 h5]]] := use r hr hne.
  exists (if s then (N c r).2 else (N c r).1); split=> //; first by case: (wire r hr) => ? [_ _ _ []]; case: (s).
  case: s h4 h5 => h4 h5; last by exists r; split=> //; [apply: s1|left].
  exists r'; split=> //; first by rewrite -s1 // h2.
  by right; split=> //; rewrite h5 h2.
exists (fun r => odflt 0 (wmv N R c r)); split.
  by move=> r hr; have [q [e hq _]] := tot r hr; rewrite e.
move=> p q hp hq; have [y [e1 _ [p' [hp' ep hpp]]]] := tot p hp; have [z [e2 _ [q' [hq' eq hqq]]]] := tot q hq.
rewrite e1 e2 /= ep eq => /f3 => /(_ hp' hq') e.
(* one packet crosses its switch and the other one does not *)
have clash r r' : r < n -> r' < n -> (N c r).1 != (N c r).2 -> N c r' = ((N c r).2, (N c r).1) -> wmv N R c r = Some (N c r').1 ->
    wmv N R c r' = Some (N c r').1 -> False.
  move=> hr hr' hne e3 e4 e5.
  have [r1 [s [a1 a2 a3 a4 a5]]] := use r hr hne.
  have er1 : r1 = r' by apply: eqN => //; rewrite a2 e3.
  rewrite er1 in a4.
  have hne' : (N c r').1 != (N c r').2 by rewrite e3 /= eq_sym.
  have [r2 [s' [b1 b2 b3 b4 b5]]] := use r' hr' hne'.
  have er2 : r2 = r by apply: eqN => //; rewrite b2 -(swapE _ _ e3).
  rewrite er2 in b4.
  have ss : s = s'.
    case/orP: a4 => /andP[/eqP u1 /eqP u2]; case/orP: b4 => /andP[/eqP v1 /eqP v2]; try (by move: u1 v1; clear; slia).
      by move: v2; rewrite u2 => -[].
    by move: v2; rewrite u2 => -[].
  move: a5 b5; rewrite e4 e5 ss e3 /=; by case: (s') => w1 w2; move: hne; [case: w2 => ->|case: w1 => ->]; rewrite eqxx.
case: hpp => [ep'|[u1 u2 u3]]; case: hqq => [eq'|[v1 v2 v3]].
- by rewrite -ep' -eq'.
- exfalso; apply: (clash q q') => //; rewrite -e ep' in v3 *; by rewrite e1 ep -s1 ?ep' // -?ep'.
- exfalso; apply: (clash p p') => //; rewrite e eq' in u3 *; by rewrite e2 eq -s1 ?eq' // -?eq'.
- by apply: eqN => //; rewrite (swapE _ _ u2) (swapE _ _ v2) e.
Qed.

(** ** The computed routing *)
Lemma get_routing_ok n p nb : 1 < n -> ip_wf p -> ip_min p = 0 -> ip_max p = (n - 1)%N -> ip_is_valid p ->
  topo (nbf nb) (up_log 2 n).-1 0 0 n id ->
  exists rt, [/\ get_as_waksman_routing p = Some rt, size rt = aw_num_columns n, moves (nbf nb) (rf rt) (aw_num_columns n) n &
    forall i j, ip_get p i = Some j -> walk (nbf nb) (rf rt) (aw_num_columns n) 0 i = Some j].
Proof.
move=> hn wf mn mx va ht.
have asz : ip_size p = n by rewrite /ip_size mn mx; slia.
have hu : 0 < up_log 2 n by rewrite up_log_gt0.
set k := (up_log 2 n).-1 in ht *.
have ec : aw_num_columns n = (2 * k + 1)%N by rewrite /aw_num_columns hn /k; slia.
have [q [eq wq mq xq gq]] := ip_inverse_ok wf va.
rewrite /get_as_waksman_routing asz ec; have -> : 0 < 2 * k + 1 by slia.
rewrite eq [obnd (Some q) _]/=.
pose pi x := odflt 0 (ip_get p x); pose pinv x := odflt 0 (ip_get q x).
have inr x : 0 <= x < 0 + n -> ip_min p <= x <= ip_max p by rewrite mn mx; slia.
have inr' x : ip_min p <= x <= ip_max p -> 0 <= x < 0 + n by rewrite mn mx; slia.
have P : pperm 0 n p q pi pinv.
  move=> x hx; rewrite /pi /pinv.
  have [j [hj e1 e2]] := gq _ (inr _ hx).
  have [i ei] := ip_valid_surj wf va (inr _ hx).
  have [x' [hx' e3 e4]] := gq _ (ip_get_some ei); have exx : x' = x by move: e3; rewrite ei => -[].
  rewrite exx in e3 e4 hx'; rewrite e1 e4 /= e2 ei /=; split=> //; [by have := inr' _ hj|by have := inr' _ (ip_get_some ei)].
have hk : n <= 2 ^ k.+1 by rewrite /k prednK //; apply: up_logP.
have [|||||rt [e1 s1 _ st]] := @route_ok (2 * k + 1) k 0 0 n p q pi pinv (nseq (2 * k + 1) [::]) _ _ _ _ hk P; rewrite ?size_nseq ?add0n //; try slia.
  by move=> c z _ _; rewrite /rf nth_nseq; case: ifP.
move: e1; rewrite !add0n => e1; rewrite addnK; exists rt.
have n0 : 0 < n by slia.
have hm : maps 0 n pi by move=> x hx; have [] := P x hx.
have wk x : x < n -> walk (nbf nb) (rf rt) (2 * k + 1) 0 x = Some (pi x) by move=> hx; apply: (walk_ok ht st hm n0).
split=> //; first by rewrite s1 size_nseq.
  (* every column is injective, because the whole walk is *)
  have pre m : m <= 2 * k + 1 -> exists g, [/\ forall x, x < n -> walk (nbf nb) (rf rt) m 0 x = Some (g x), forall x, x < n -> g x < n &
      forall x x', x < n -> x' < n -> g x = g x' -> x = x'].
    move=> hm'; pose g x := odflt 0 (walk (nbf nb) (rf rt) m 0 x).
    have eg x : x < n -> walk (nbf nb) (rf rt) m 0 x = Some (g x).
      move=> hx; rewrite /g; case e: (walk _ _ m 0 x) => [y|] //; have := wk x hx.
      by rewrite -(subnKC hm') walk_add e.
    exists g; split=> //; last first.
      move=> x x' hx hx' egg; have := wk x hx; have := wk x' hx'; rewrite -(subnKC hm') !walk_add !eg // egg /= => -> [e].
      by have [_ _ _ _ [<- _]] := P x hx; rewrite -e; have [_ _ _ _ [-> _]] := P x' hx'.
    move=> x hx; have := eg x hx.
    clear eg; move: (g x) => {g} y; elim: m hm' y => [|m ih] hm' y; first by case=> <-.
    rewrite -addn1 walk_add; case e: (walk _ _ m 0 x) => [z|] //; rewrite [obnd (Some z) _]/= -/(walk _ _ 1 _ _) walk1 add0n.
    have hz := ih (ltnW hm') z e.
    have [r [_ _ _ q1 q2]] : wired (nbf nb) 0 n m z (fun q => q < n) by apply: (topo_wired ht) => //; slia.
    rewrite /wmv; case: ifP => _; first by case=> <-.
    by case: ifP => // _; case: (if _ then _ else _) => //= b -[<-]; case: b.
  move=> c hc; have [g [g1 g2 g3]] := pre c (ltnW hc); have [h [h1 h2 h3]] := pre c.+1 hc.
  have sur := inj_surj_iota g2 g3.
  have mvE x : x < n -> wmv (nbf nb) (rf rt) c (g x) = Some (h x).
    by move=> hx; have := h1 x hx; rewrite -addn1 walk_add g1 // [obnd (Some _) _]/= -/(walk _ _ 1 _ _) walk1 add0n.
  exists (fun y => odflt 0 (wmv (nbf nb) (rf rt) c y)); split.
    by move=> y hy; have [x hx <-] := sur y hy; rewrite mvE //; split=> //; apply: h2.
  move=> y y' hy hy'; have [x hx <-] := sur y hy; have [x' hx' <-] := sur y' hy'; rewrite !mvE //= => e.
  by congr g; apply: h3.
move=> i j e; have := inr' _ (ip_get_some e); rewrite add0n => hi; rewrite wk //; by rewrite /pi e.
Qed.
