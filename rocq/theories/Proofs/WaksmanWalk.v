(** Following the packets through the AS-Waksman network. *)
From mathcomp Require Import all_ssreflect.
From Verif.Model Require Import Base OrderedMap IntegerPermutation AsWaksman.
From Verif.Proofs Require Import NatTac PermProofs WaksmanTopology WaksmanLevel WaksmanLoop WaksmanRoute WaksmanRecursion.
Set Implicit Arguments.
Unset Strict Implicit.
Unset Printing Implicit Defensive.
Local Arguments settings : simpl never.
Local Arguments topo : simpl never.
Local Arguments aw_canonical : simpl never.

(** one column, on the tables read as functions *)
Definition above (R : nat -> nat -> option bool) c p := if p is p'.+1 then R c p' else None.
Definition wmv (N : nat -> nat -> nat * nat) (R : nat -> nat -> option bool) c p : option nat :=
  let e := N c p in
  if e.1 == e.2 then Some e.1 else
    if isSome (R c p) (+) isSome (above R c p) then
      obnd (if isSome (R c p) then R c p else above R c p) (fun b : bool => Some (if b then e.2 else e.1)) else None.
Fixpoint walk N R m c p : option nat := if m is m'.+1 then obnd (wmv N R c p) (walk N R m' c.+1) else Some p.

Lemma walk_add N R a b c p : walk N R (a + b) c p = obnd (walk N R a c p) (walk N R b (c + a)).
Proof.
elim: a c p => [|a ih] c p; first by rewrite addn0.
by rewrite /=; case: (wmv _ _ _ _) => //= p'; rewrite ih addSnnS.
Qed.
Lemma walk1 N R c p : walk N R 1 c p = wmv N R c p. Proof. by rewrite /=; case: (wmv _ _ _ _). Qed.

Lemma wmv_const N R c p a : N c p = (a, a) -> wmv N R c p = Some a.
Proof. by move=> e; rewrite /wmv e /= eqxx. Qed.
Lemma wmv_top N R c p a b s : N c p = (a, b) -> R c p = Some s -> above R c p = None -> wmv N R c p = Some (if s then b else a).
Proof. by move=> e e1 e2; rewrite /wmv e e1 e2 /=; case: eqP => //= ->; case: s {e1}. Qed.
Lemma wmv_bot N R c p a b s : N c p.+1 = (a, b) -> R c p.+1 = None -> R c p = Some s -> wmv N R c p.+1 = Some (if s then b else a).
Proof. by move=> e e1 e2; rewrite /wmv e e1 /= e2 /=; case: eqP => //= ->; case: s {e2}. Qed.

Section LevelWalk.
Variables (N : nat -> nat -> nat * nat) (R : nat -> nat -> option bool) (left right lo n : nat) (pi np dest : nat -> nat).
Hypothesis n2 : 2 < n.
Hypothesis ls : level_set R left right lo n pi np.
Hypothesis pim : maps lo n pi.
Hypothesis Nleft : forall i, i < n %/ 2 -> let x := (lo + 2 * i)%N in let t := (lo + i)%N in let b := (lo + i + n %/ 2)%N in
        if ~~ odd n && (i.+1 == n %/ 2) then N left x = (t, t) /\ N left x.+1 = (b, b) else N left x = (t, b) /\ N left x.+1 = (b, t).
Hypothesis Nright : forall i, i < n %/ 2 -> let x := (lo + 2 * i)%N in N right x = (dest x, dest x.+1) /\ N right x.+1 = (dest x.+1, dest x).
Hypothesis Nlast : odd n -> let h := (lo + n - 1)%N in N left h = (h, h) /\ N right h = (dest h, dest h).
Hypothesis up : forall c, (c == left) || (c == right) -> above R c lo = None.

Lemma above_canon c i : (c == left) || (c == right) -> i < n %/ 2 -> above R c (lo + 2 * i) = None.
Proof.
move=> hc hi; case: i hi => [|i] hi; first by rewrite muln0 addn0; apply: up.
have -> : (lo + 2 * i.+1 = (lo + 2 * i + true).+1)%N by rewrite addn1; slia.
have en := half_eq n; case: ls => _ h _ _ /=; apply: (h _ _ hc); first by rewrite addn1; slia.
by rewrite (canon_form lo i true) addn1; slia.
Qed.
Lemma below_none c i : (c == left) || (c == right) -> i < n %/ 2 -> R c (lo + 2 * i).+1 = None.
Proof.
move=> hc hi; have -> : ((lo + 2 * i).+1 = lo + 2 * i + true)%N by rewrite addn1.
have en := half_eq n; case: ls => _ h _ _ /=; apply: (h _ _ hc); first by rewrite addn1; slia.
by rewrite (canon_form lo i true) addn1; slia.
Qed.

Lemma level_walk x : lo <= x < lo + n -> exists p, [/\ lo <= p < lo + n, wmv N R left x = Some p & wmv N R right (newdest lo n (np p)) = Some (dest (pi x))].
Proof.
move=> hx; have [h1 _ _ _] := ls; have [t [e1 e2 e3 e4 e5]] := h1 x hx.
have le x' : lo <= x' < lo + n -> lo <= x' <= lo + n - 1 by slia.
have px : port lo n x by apply: port_le => //; apply: le.
have py : port lo n (pi x) by apply: port_le => //; apply: le; apply: pim.
have hy := pim hx; have en := half_eq n; have Phi := port_hi lo n2.
have ehf := hi_form lo n2.
exists (pos lo n x t); split.
- by have := pos_range n2 px e2; slia.
- case: ifP e4 => [/eqP ec et|hne e4].
    case: (canon_eq Phi px (esym ec)) => ex.
      move: et; rewrite ex eqxx /= => ->; rewrite pos_hi //.
      case: (boolP (odd n)) => ho; first by apply: wmv_const; case: (Nlast ho).
      have hd : (n %/ 2).-1 < n %/ 2 by move: en n2; rewrite (negbTE ho) /=; slia.
      have := Nleft hd; rewrite prednK; last by slia.
      rewrite ho eqxx /= => -[_ e]; rewrite (negbTE ho) addn0 in en.
      have e' : (lo + n - 1 = (lo + 2 * (n %/ 2).-1).+1)%N by slia.
      rewrite {1}e' (wmv_const _ e); congr Some; slia.
    have ho : ~~ odd n by apply/negP => ho; move: hx; rewrite ex sib_hi // ho; slia.
    have et' : t = true by rewrite et ex (sib_neq Phi).
    have hd : (n %/ 2).-1 < n %/ 2 by move: en n2; rewrite (negbTE ho) /=; slia.
    have := Nleft hd; rewrite prednK; last by slia.
    rewrite ho eqxx /= => -[e _]; rewrite (negbTE ho) addn0 in en.
    have e' : (x = lo + 2 * (n %/ 2).-1 + false)%N by rewrite ex sib_hi // (negbTE ho) addn0; have := n2; slia.
    rewrite et' /pos e' idx_form !addn0; exact: wmv_const.
  case/portP: (px) => i [b [ex hi]].
  have hid : i < n %/ 2.
    rewrite ltnNge; apply/negP => hge; move/eqP: hne; apply; rewrite ex canon_form ehf canon_form.
    by move: hi hge; case: (odd n) => /=; slia.
  have hc : ~~ odd n && (i.+1 == n %/ 2) = false.
    apply/negP => /andP[ho /eqP ei]; move/eqP: hne; apply; rewrite ex canon_form ehf canon_form ho -ei /=; slia.
  have := Nleft hid; rewrite hc /= => -[n1 n3].
  move: e4; rewrite ex canon_form topp_form => e4; rewrite /pos idx_form.
  have hl : (left == left) || (left == right) by rewrite eqxx.
  case: b ex e4 => ex e4; rewrite ?addn0 ?addn1 in ex e4 *.
    by rewrite (wmv_bot n3 (below_none hl hid) e4); congr Some; case: (t); rewrite /= ?addn0.
  by rewrite (wmv_top n1 e4 (above_canon hl hid)); congr Some; case: (t); rewrite /= ?addn0.
rewrite e1; case/portP: (py) => j [b [ey hj]].
case: ifP e5 => [/andP[ho /eqP eh] et|hne e5].
  rewrite et eh pos_hi //; case: (Nlast ho) => _ e.
  have -> : newdest lo n (lo + n - 1) = (lo + n - 1)%N.
    rewrite /newdest; have -> : (lo + n - 1 - lo < n %/ 2) = false by move: en n2; rewrite ho /=; slia.
    by rewrite ho /=; case: eqP => // h; slia.
  exact: wmv_const.
have hjd : j < n %/ 2.
  rewrite ltnNge; apply/negP => hge; move: hne hj hy en; rewrite ey; case: (odd n) => /=; case: (b) => /=; slia.
have hr : (right == left) || (right == right) by rewrite eqxx orbT.
have [n1 n3] := Nright hjd.
have nde : newdest lo n (pos lo n (pi x) t) = (lo + 2 * j + ~~ t)%N.
  rewrite ey /pos idx_form /newdest; case: (t); rewrite /= ?addn0.
    by rewrite addKn hjd.
  have -> : (lo + j + n %/ 2 - lo < n %/ 2) = false by slia.
  rewrite ifN; first by slia.
  by apply/negP => /andP[ho /eqP e]; move: e en; rewrite ho /=; slia.
rewrite nde; move: e5; rewrite ey canon_form topp_form => e5.
case: t nde e5 {e1 e2 e3 e4} => nde e5 /=; rewrite ?addn0 ?addn1.
  by rewrite (wmv_top n1 e5 (above_canon hr hjd)); congr Some; case: (b); rewrite /= ?addn0 ?addn1.
by rewrite (wmv_bot n3 (below_none hr hjd) e5); congr Some; case: (b); rewrite /= ?addn0 ?addn1.
Qed.
End LevelWalk.

Lemma above_pred R c lo : 0 < lo -> above R c lo = R c (lo - 1).
Proof. by case: lo => // lo _; rewrite /= subn1. Qed.

Local Arguments walk : simpl never.
(** ** Every packet reaches its destination *)
Lemma walk_ok N R k left lo n dest pi : topo N k left lo n dest -> settings R k left lo n pi -> maps lo n pi -> 0 < n ->
  (forall c, left <= c <= left + 2 * k -> above R c lo = None) ->
  forall x, lo <= x < lo + n -> walk N R (2 * k + 1) left x = Some (dest (pi x)).
Proof.
elim: k left lo n dest pi => [|k ih] left lo n dest pi ht hs hm hn hup x hx.
  rewrite muln0 walk1; move: ht hs; rewrite topo0 settings0; case: leqP => h1.
    move=> a b; have ex : (x = lo + 0)%N by slia.
    by rewrite ex (wmv_const _ (a 0 hn)); case: (b 0 hn) => _ ->.
  case: eqP => // en [a1 a2] [b1 b2 b3].
  have hup' : above R left lo = None by apply: hup; slia.
  have [ex|ex] : x = lo \/ x = lo.+1 by move: hx; rewrite en; slia.
    rewrite ex (wmv_top a1 b1 hup'); congr Some.
    by move: b3; case: eqP => /= [->|_ [-> _]].
  rewrite ex (wmv_bot a2 b2 b1); congr Some.
  by move: b3; case: eqP => /= [_ ->|_ [_ ->]].
have -> : (2 * k.+1 + 1 = 1 + (2 * k + 1) + 1)%N by slia.
rewrite !walk_add !walk1.
have er : (left + (1 + (2 * k + 1)) = left + 2 * k.+1)%N by slia.
rewrite er [(left + 1)%N]addn1.
have hup' c : left.+1 <= c <= left.+1 + 2 * k -> above R c lo = None by move=> hc; apply: hup; slia.
move: ht hs; rewrite topoS settingsS; case: ifP => hk.
  case=> a1 a2 a3 [_ _ b3].
  have hi : x - lo < n by slia.
  have ex : (lo + (x - lo) = x)%N by slia.
  have -> : wmv N R left x = Some x by apply: wmv_const; have := a1 _ hi; rewrite ex.
  rewrite /= (ih _ lo n id pi) //= walk1.
  have hy := hm _ hx.
  have hi' : pi x - lo < n by slia.
  have ey : (lo + (pi x - lo) = pi x)%N by slia.
  by apply: wmv_const; have := a2 _ hi'; rewrite ey.
have [-> n2] := pow_n2 hk; have en := half_eq n; have ob := leq_b1 (odd n).
case=> a1 a2 a3 a4 a5 [np [b1 b2 b3]].
have up c : (c == left) || (c == left + 2 * k.+1)%N -> above R c lo = None.
  by move=> hc; apply: hup; case/orP: hc => /eqP->; slia.
have [p [hp -> e2]] := level_walk n2 b1 hm a1 a2 a3 up hx.
have [m1 m2] := maps_halves (let: And4 _ _ _ h := b1 in h).
suff e3 : walk N R (2 * k + 1) left.+1 p = Some (newdest lo n (np p)) by rewrite /= e3 /= walk1.
have dpos : 0 < n %/ 2 by slia.
case: (ltnP p (lo + n %/ 2)) => hlt.
  by apply: ih a4 b2 m1 dpos hup' _ _; slia.
apply: ih a5 b3 m2 _ _ _ _; [slia| |slia].
move=> c hc; rewrite above_pred; last by slia.
by apply: settings_last b2 dpos hc.
Qed.

(** ** Wiring: every switch joins two neighbouring rows, and every wire stays among the rows *)
Lemma newdest_range lo n r : lo <= r < lo + n -> lo <= newdest lo n r < lo + n.
Proof.
rewrite /newdest; have := half_eq n; move: (n %/ 2) => d en hr.
case: ltnP => h; first by slia.
case: ifP => // h'; move: en h'; case: (odd n) => /=; slia.
Qed.
Definition wired (N : nat -> nat -> nat * nat) (lo n c r : nat) (Q : nat -> bool) := exists r',
  [/\ lo <= r' < lo + n, N c r' = ((N c r).2, (N c r).1), [|| r' == r.+1, r == r'.+1 | (r' == r) && ((N c r).1 == (N c r).2)],
      Q (N c r).1 & Q (N c r).2].
Lemma wired_const N lo n c r a (Q : nat -> bool) : lo <= r < lo + n -> N c r = (a, a) -> Q a -> wired N lo n c r Q.
Proof. by move=> hr e q; exists r; rewrite e /= !eqxx !orbT. Qed.
Lemma wired_pair N lo n c r a b (Q : nat -> bool) : lo <= r -> r.+1 < lo + n -> N c r = (a, b) /\ N c r.+1 = (b, a) -> Q a -> Q b ->
  wired N lo n c r Q /\ wired N lo n c r.+1 Q.
Proof.
move=> h1 h2 [e1 e2] qa qb; split.
  by exists r.+1; rewrite e1 e2 /= eqxx h2 andbT; split=> //; apply: leqW.
by exists r; rewrite e1 e2 /= eqxx orbT h1; split=> //; apply: ltnW.
Qed.
Lemma topo_wired N k left lo n dest (Q : nat -> bool) : topo N k left lo n dest -> (forall q, lo <= q < lo + n -> Q q) ->
  (forall q, lo <= q < lo + n -> Q (dest q)) -> forall c r, left <= c <= left + 2 * k -> lo <= r < lo + n -> wired N lo n c r Q.
Proof.
elim: k left lo n dest Q => [|k ih] left lo n dest Q ht hQ hd c r hc hr.
  have ec : c = left by slia.
  move: ht; rewrite topo0 ec; case: leqP => h1 h.
    have e := h (r - lo); have er : (lo + (r - lo) = r)%N by slia.
    by rewrite er in e; apply: (wired_const hr (e _)); [slia|apply: hd].
  move: h; case: eqP => // en h.
  have [|||| w1 w2] := @wired_pair N lo n left lo _ _ Q _ _ h; [by []|slia|apply: hd; slia|apply: hd; slia|].
  by have [->|->] : r = lo \/ r = lo.+1 by slia.
move: ht; rewrite topoS; case: ifP => hk.
  case=> a1 a2 a3; have er : (lo + (r - lo) = r)%N by slia.
  have hlt : r - lo < n by slia.
  case: (c =P left) => [->|c1].
    by have e := a1 _ hlt; rewrite er in e; apply: (wired_const hr e); apply: hQ.
  case: (c =P (left + 2 * k.+1)%N) => [->|c2].
    by have e := a2 _ hlt; rewrite er in e; apply: (wired_const hr e); apply: hd.
  by refine (ih _ _ _ _ _ a3 hQ hQ _ _ _ hr); slia.
have [-> n2] := pow_n2 hk; have en := half_eq n; have ob := leq_b1 (odd n).
case=> a1 a2 a3 a4 a5.
case: (boolP ((c == left) || (c == left + 2 * k.+1)%N)) => [hc'|/norP[c1 c2]]; last first.
  have wid lo' n' c' r' : lo <= lo' -> lo' + n' <= lo + n -> wired N lo' n' c' r' Q -> wired N lo n c' r' Q.
    by move=> h1 h2 [r2 [b1 b2 b3 b4 b5]]; exists r2; split=> //; slia.
  case: (ltnP r (lo + n %/ 2)) => hlt.
    apply: (wid lo (n %/ 2)); [slia|slia|].
    apply: ih a4 _ _ _ _ _ _; [by move=> q hq; apply: hQ; slia| |slia|slia].
    by move=> q hq; apply: hQ; apply: newdest_range; slia.
  apply: (wid (lo + n %/ 2)%N (n - n %/ 2)%N); [slia|slia|].
  apply: ih a5 _ _ _ _ _ _; [by move=> q hq; apply: hQ; slia| |slia|slia].
  by move=> q hq; apply: hQ; apply: newdest_range; slia.
case: (boolP (odd n && (r == lo + n - 1)%N)) => [/andP[ho /eqP eh]|hne].
  case: (a3 ho) => b1 b2; rewrite eh; case/orP: hc' => /eqP->.
    by apply: wired_const b1 _; [slia|apply: hQ; slia].
  by apply: wired_const b2 _; [slia|apply: hd; slia].
have [i [b [er hi]]] : exists i (b : bool), r = (lo + 2 * i + b)%N /\ i < n %/ 2.
  exists ((r - lo) %/ 2), (odd (r - lo)); have := half_eq (r - lo); move: hne en hr.
  by move: ((r - lo) %/ 2) (odd (r - lo)) (n %/ 2) => q b d; case: (odd n) b => -[] /= *; split; slia.
have l1 : lo <= lo + 2 * i by slia.
have l2 : (lo + 2 * i).+1 < lo + n by slia.
suff [w1 w2] : wired N lo n c (lo + 2 * i) Q /\ wired N lo n c (lo + 2 * i).+1 Q.
  by rewrite er; case: (b); rewrite ?addn1 ?addn0.
have q1 : Q (lo + i)%N by apply: hQ; slia.
have q2 : Q (lo + i + n %/ 2)%N by apply: hQ; slia.
case/orP: hc' => /eqP->; last first.
  have h := a2 i hi; apply: (wired_pair l1 l2 h); apply: hd; slia.
have := a1 i hi; rewrite /=; case: ifP => _ h; last by apply: (wired_pair l1 l2 h).
by case: h => h1 h2; split; [apply: (wired_const _ h1)|apply: (wired_const _ h2)] => //; slia.
Qed.
