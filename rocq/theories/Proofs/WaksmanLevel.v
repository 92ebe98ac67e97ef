(** One level of the AS-Waksman routing algorithm, on functions: the ports of the outer switches, and the invariant of the loop.
    For an odd number of rows the last row, which has no switch, is seen as the upper port of an additional switch whose lower
    port (the row after the last one) is routed to itself through the upper sub-network. *)
From mathcomp Require Import all_ssreflect.
From Verif.Model Require Import Base OrderedMap IntegerPermutation AsWaksman.
From Verif.Proofs Require Import NatTac PermProofs WaksmanTopology.
Set Implicit Arguments.
Unset Strict Implicit.
Unset Printing Implicit Defensive.

Section Level.
Variables (lo n : nat).
Hypothesis n2 : 2 < n.
Notation d := (n %/ 2).
Notation hi := (lo + n - 1)%N.
Notation canon := (aw_canonical lo).
Notation sib := (aw_other lo).
Definition port x := lo <= x < lo + n + odd n.
Definition topp x := x == canon x.
Definition pos x (t : bool) := (lo + (x - lo) %/ 2 + (if t then 0 else d))%N.
Definition lastp := (lo + n + odd n - 1)%N.

Lemma nE : n = (2 * d + odd n)%N. Proof. exact: half_eq. Qed.

Lemma portP x : port x -> exists i (b : bool), x = (lo + 2 * i + b)%N /\ i < d + odd n.
Proof.
move=> /andP [h1 h2]; exists ((x - lo) %/ 2), (odd (x - lo)).
have := half_eq (x - lo); have := nE; move: h2; move: ((x - lo) %/ 2) (odd (x - lo)) (n %/ 2) => i b dd.
by case: (odd n) b => -[] /= h2 h3 h4; split; slia.
Qed.
Lemma port_form i (b : bool) : i < d + odd n -> port (lo + 2 * i + b).
Proof. by rewrite /port; have := nE; move: (n %/ 2) => dd; case: (odd n) b => -[] /= *; slia. Qed.
Lemma idx_form i (b : bool) : (lo + 2 * i + b - lo) %/ 2 = i.
Proof. by rewrite -addnA addKn mulnC divnMDl // divn_small ?addn0 //; case: b. Qed.
Lemma canon_form i (b : bool) : canon (lo + 2 * i + b) = (lo + 2 * i)%N.
Proof. by rewrite /aw_canonical idx_form mulnC addnC. Qed.
Lemma topp_form i (b : bool) : topp (lo + 2 * i + b) = ~~ b.
Proof. rewrite /topp canon_form; case: b => /=; slia. Qed.
Lemma sib_form i (b : bool) : sib (lo + 2 * i + b) = (lo + 2 * i + ~~ b)%N.
Proof. rewrite /aw_other canon_form; case: b => /=; slia. Qed.

Lemma port_sib x : port x -> port (sib x).
Proof. by case/portP => i [b [-> hi0]]; rewrite sib_form port_form. Qed.
Lemma canon_sib x : port x -> canon (sib x) = canon x.
Proof. by case/portP => i [b [-> hi0]]; rewrite sib_form !canon_form. Qed.
Lemma topp_sib x : port x -> topp (sib x) = ~~ topp x.
Proof. by case/portP => i [b [-> hi0]]; rewrite sib_form !topp_form. Qed.
Lemma sibK x : port x -> sib (sib x) = x.
Proof. by case/portP => i [b [-> hi0]]; rewrite !sib_form negbK. Qed.
Lemma sib_neq x : port x -> sib x != x.
Proof. case/portP => i [b [-> hi0]]; rewrite sib_form; case: b => /=; slia. Qed.
Lemma sib_inj x y : port x -> port y -> sib x = sib y -> x = y.
Proof. by move=> hx hy e; rewrite -(sibK hx) e sibK. Qed.
Lemma canon_eq x y : port x -> port y -> canon x = canon y -> y = x \/ y = sib x.
Proof.
case/portP => i [b [-> hi0]]; case/portP => j [c [-> hj]]; rewrite !canon_form sib_form => e.
have -> : i = j by slia.
by case: b c => -[]; [left|right|right|left].
Qed.
Lemma port_canon x : port x -> port (canon x).
Proof. by case/portP => i [b [-> hi0]]; rewrite canon_form -[(lo + 2 * i)%N]addn0 (@port_form i false). Qed.
Lemma canonK x : port x -> canon (canon x) = canon x.
Proof. by case/portP => i [b [-> hi0]]; rewrite canon_form -[X in canon X]addn0 (@canon_form i false). Qed.
Lemma pos_sib x t : port x -> pos (sib x) t = pos x t.
Proof. by case/portP => i [b [-> hi0]]; rewrite sib_form /pos !idx_form. Qed.
Lemma pos_inj x t y s : port x -> port y -> (x - lo) %/ 2 < (if t then d else n - d) -> (y - lo) %/ 2 < (if s then d else n - d) ->
  pos x t = pos y s -> t = s /\ canon x = canon y.
Proof.
case/portP => i [b [-> hi0]]; case/portP => j [c [-> hj]]; rewrite !idx_form /pos !idx_form !canon_form.
by case: t s => -[] h1 h2 e; split => //; slia.
Qed.
Lemma proper_sw x t : port x -> canon x < lo + 2 * d -> (x - lo) %/ 2 < (if t then d else n - d).
Proof.
case/portP => i [b [-> hi0]]; rewrite canon_form idx_form => h; have := n2; have := nE; move: (n %/ 2) h hi0 => dd.
case: t (odd n) => -[] /=; slia.
Qed.
Lemma switch_pos x t : port x -> canon x < lo + 2 * d -> aw_switch_output n lo (canon x) t = Some (pos x t).
Proof. by case/portP => i [b [-> hi0]]; rewrite canon_form => h; rewrite switch_outputE ?/pos ?idx_form //; slia. Qed.

Lemma hi_form : hi = (lo + 2 * (d - ~~ odd n) + ~~ odd n)%N.
Proof. have := n2; have := nE; move: (n %/ 2) => dd; case: (odd n) => /=; slia. Qed.
Lemma hi_idx : d - ~~ odd n < d + odd n.
Proof. by have := n2; have := nE; move: (n %/ 2) => dd; case: (odd n) => /=; slia. Qed.
Lemma port_hi : port hi. Proof. by rewrite hi_form port_form // hi_idx. Qed.
Lemma topp_hi : topp hi = odd n. Proof. by rewrite hi_form topp_form negbK. Qed.
Lemma sib_hi : sib hi = if odd n then (lo + n)%N else hi.-1.
Proof. rewrite [X in sib X]hi_form sib_form; have := n2; have := nE; move: (n %/ 2) => dd; case: (odd n) => /=; slia. Qed.
Lemma canon_hi : canon hi = (hi - ~~ odd n)%N.
Proof. by rewrite [X in canon X]hi_form canon_form; have := n2; have := nE; move: (n %/ 2) => dd; case: (odd n) => /=; slia. Qed.
Lemma pos_hi : pos hi false = hi.
Proof. rewrite /pos [X in (X - lo) %/ 2]hi_form idx_form; have := n2; have := nE; move: (n %/ 2) => dd; case: (odd n) => /=; slia. Qed.
Lemma proper_hi : (hi - lo) %/ 2 < n - d.
Proof. rewrite [X in (X - lo) %/ 2]hi_form idx_form; have := n2; have := nE; move: (n %/ 2) => dd; case: (odd n) => /=; slia. Qed.
Lemma port_last : port lastp.
Proof. rewrite /port /lastp; have := n2; case: (odd n) => /=; slia. Qed.
Lemma last_odd : odd n -> lastp = sib hi. Proof. by move=> h; rewrite /lastp sib_hi h /=; have := n2; slia. Qed.
Lemma last_even : ~~ odd n -> lastp = hi. Proof. by move=> h; rewrite /lastp (negbTE h) addn0. Qed.
Lemma port_le x : lo <= x <= hi -> port x.
Proof. by rewrite /port => h; have := n2; slia. Qed.
Lemma port_gt x : port x -> hi < x -> odd n /\ x = sib hi.
Proof. by rewrite sib_hi /port; have := n2; case: (odd n) => /= h0 h1 h2; split=> //; slia. Qed.
Lemma canon_sw x : port x -> canon x <> canon hi -> canon x < lo + 2 * d.
Proof.
case/portP => i [b [-> hi0]]; rewrite canon_form [in X in _ <> X]hi_form canon_form; have := n2; have := nE; move: (n %/ 2) hi0 => dd.
by case: (odd n) => /= *; slia.
Qed.
Lemma canon_sw_even x : port x -> ~~ odd n -> canon x < lo + 2 * d.
Proof. by case/portP => i [b [-> hi0]]; rewrite canon_form => h; move: hi0; rewrite (negbTE h) /=; slia. Qed.
Lemma canon_range x : port x -> x <= hi -> lo <= canon x <= hi.
Proof. by case/portP => i [b [-> hi0]]; rewrite canon_form => h; slia. Qed.
Lemma pos_range x t : port x -> (x - lo) %/ 2 < (if t then d else n - d) -> lo <= pos x t <= hi.
Proof. by case/portP => i [b [-> hi0]]; rewrite idx_form /pos idx_form; have := n2; have := nE; move: (n %/ 2) hi0 => dd; case: t; slia. Qed.
Lemma pos_half x t : port x -> (x - lo) %/ 2 < (if t then d else n - d) -> (pos x t < lo + d) = t.
Proof. by case/portP => i [b [-> hi0]]; rewrite idx_form /pos idx_form; case: t; slia. Qed.

(** ** Decisions *)
Definition dec (M : nat -> option bool) x : option bool := omap (addb (topp x)) (M (canon x)).
Lemma dec_sib M x : port x -> dec M (sib x) = omap negb (dec M x).
Proof. by move=> hx; rewrite /dec canon_sib // topp_sib //; case: (M _) => //= b; rewrite addNb. Qed.
Lemma dec_sibS M x t : port x -> dec M x = Some t -> dec M (sib x) = Some (~~ t).
Proof. by move=> hx e; rewrite dec_sib // e. Qed.
Definition upd (A : Type) (f : nat -> A) a v := fun z => if z == a then v else f z.
Lemma dec_upd M x t : dec (upd M (canon x) (Some (topp x (+) t))) x = Some t.
Proof. by rewrite /dec /upd eqxx /= addbA addbb addFb. Qed.
Lemma dec_set M x t : M (canon x) = Some (topp x (+) t) -> dec M x = Some t.
Proof. by rewrite /dec => -> /=; rewrite addbA addbb addFb. Qed.
Lemma dec_get M x t : dec M x = Some t -> M (canon x) = Some (topp x (+) t).
Proof. by rewrite /dec; case: (M _) => //= b [<-]; rewrite addbA addbb addFb. Qed.

(** ** The invariant *)
Variables (pi pinv : nat -> nat).
Hypothesis pi_port : forall x, port x -> port (pi x).
Hypothesis pinv_port : forall x, port x -> port (pinv x).
Hypothesis piK : forall x, port x -> pinv (pi x) = x.
Hypothesis pinvK : forall x, port x -> pi (pinv x) = x.
Hypothesis pi_last : odd n -> pi lastp = lastp.

Lemma pi_inj x y : port x -> port y -> pi x = pi y -> x = y.
Proof. by move=> hx hy e; rewrite -(piK hx) e piK. Qed.
Lemma pi_hi x : port x -> x <= hi -> pi x <= hi.
Proof.
move=> hx h; rewrite leqNgt; apply/negP => /(port_gt (pi_port hx)) [ho e].
have e' : pi x = pi lastp by rewrite pi_last // last_odd.
by have := n2; have := pi_inj hx port_last e'; move: h; rewrite /lastp ho /=; slia.
Qed.

Record inv (r : nat -> bool) (L R : nat -> option bool) (np npi : nat -> nat) (A B : seq nat) : Prop := Inv {
  inv1 : forall x, port x -> r x -> exists t, [/\ dec L x = Some t, dec R (pi x) = Some t &
           x <= hi -> np (pos x t) = pos (pi x) t /\ npi (pos (pi x) t) = pos x t];
  inv2 : forall x, port x -> r x -> r (sib x) || (x \in A);
  inv3 : forall y, port y -> r (pinv y) -> r (pinv (sib y)) || (y \in B);
  inv4 : forall x, port x -> L (canon x) <> None ->
           r x || r (sib x) || (~~ odd n && (canon x == canon hi) && (L (canon x) == Some false));
  inv5 : forall y, port y -> R (canon y) <> None -> r (pinv y) || r (pinv (sib y));
  inv6 : dec L hi = Some false /\ (odd n -> dec R hi = Some false);
  inv7 : forall z, r z || (z <= hi);
  inv8 : (forall z, L z <> None -> exists2 x, port x & z = canon x) /\ (forall z, R z <> None -> exists2 x, port x & z = canon x) }.

Definition addr (r : nat -> bool) x := fun z => (z == x) || r z.
Lemma addr_inv r x y : port x -> port y -> addr r x (pinv y) = (y == pi x) || r (pinv y).
Proof.
move=> hx hy; rewrite /addr; congr (_ || _); apply/eqP/eqP => [<-|->]; first by rewrite pinvK.
by rewrite piK.
Qed.

Lemma proper_dec M x t : port x -> x <= hi -> dec M x = Some t -> (odd n -> dec M hi = Some false) -> (x - lo) %/ 2 < (if t then d else n - d).
Proof.
move=> hx h e ho; case: (boolP (odd n)) => hn; last by apply: proper_sw => //; apply: canon_sw_even.
case: (eqVneq (canon x) (canon hi)) => [ec|/eqP hne]; last by apply: proper_sw => //; apply: canon_sw.
have ex : x = hi.
  case: (canon_eq port_hi hx (esym ec)) => // e'; move: h; have := n2; rewrite e' sib_hi hn; slia.
move: e; rewrite ex (ho hn) => -[<-]; exact: proper_hi.
Qed.

Lemma route_one r L R np npi A B x t L' R' A' B' : inv r L R np npi A B -> port x -> x <= hi ->
  (forall z, z != canon x -> L' z = L z) -> (forall z, L z <> None -> L' z = L z) ->
  (forall z, z != canon (pi x) -> R' z = R z) -> (forall z, R z <> None -> R' z = R z) ->
  dec L' x = Some t -> dec R' (pi x) = Some t ->
  (forall z, z \in A -> z != sib x -> z \in A') -> r (sib x) || (x \in A') ->
  (forall z, z \in B -> z != sib (pi x) -> z \in B') -> r (pinv (sib (pi x))) || (pi x \in B') ->
  inv (addr r x) L' R' (upd np (pos x t) (pos (pi x) t)) (upd npi (pos (pi x) t) (pos x t)) A' B'.
Proof.
move=> I hx hxh L1 L2 R1 R2 dl dr a1 a2 b1 b2.
have hy := pi_port hx.
have hyh := pi_hi hx hxh.
have L3 z s : dec L z = Some s -> dec L' z = Some s.
  by rewrite /dec => e; rewrite L2 //; case: (L _) e.
have R3 z s : dec R z = Some s -> dec R' z = Some s.
  by rewrite /dec => e; rewrite R2 //; case: (R _) e.
have [l6 r6] := inv6 I.
have P1 z s : port z -> z <= hi -> dec L' z = Some s -> (z - lo) %/ 2 < (if s then d else n - d).
  by move=> hz hzh e; apply: (proper_dec hz hzh e) => _; apply: L3.
have P2 z s : port z -> z <= hi -> dec R' z = Some s -> (z - lo) %/ 2 < (if s then d else n - d).
  by move=> hz hzh e; apply: (proper_dec hz hzh e) => ho; apply: R3; apply: r6.
split.
- move=> z hz /orP [/eqP -> | hr].
    by exists t; split=> // _; rewrite /upd !eqxx.
  have [s [dl' dr' h]] := inv1 I hz hr.
  case: (eqVneq z x) => [->|hzx]; first by exists t; split=> // _; rewrite /upd !eqxx.
  exists s; split; [exact: L3|exact: R3|move=> hzh].
  have [e1 e2] := h hzh; rewrite /upd.
  rewrite ifN; last first.
    apply/eqP => e; case: (pos_inj hz hx (P1 _ _ hz hzh (L3 _ _ dl')) (P1 _ _ hx hxh dl) e) => es ec.
    case: (canon_eq hx hz (esym ec)) => e'; first by rewrite e' eqxx in hzx.
    by have := L3 _ _ dl'; rewrite e' dec_sib // dl es; case: (t).
  rewrite ifN //.
  have hpz := pi_port hz.
  apply/eqP => e; case: (pos_inj hpz hy (P2 _ _ hpz (pi_hi hz hzh) (R3 _ _ dr')) (P2 _ _ hy hyh dr) e) => es ec.
  case: (canon_eq hy hpz (esym ec)) => e'; first by move: (pi_inj hz hx e') => e''; rewrite e'' eqxx in hzx.
  by have := R3 _ _ dr'; rewrite e' dec_sib // dr es; case: (t).
- move=> z hz; rewrite /addr => /orP [/eqP -> | hr].
    by case/orP: a2 => ->; rewrite ?orbT.
  case: (eqVneq z (sib x)) => [->|hne]; first by rewrite sibK // eqxx.
  by case/orP: (inv2 I hz hr) => h; [rewrite h !orbT|rewrite a1 ?orbT].
- move=> y hy'; rewrite !addr_inv ?port_sib // => /orP [/eqP -> | hr].
    by case/orP: b2 => ->; rewrite ?orbT.
  case: (eqVneq y (sib (pi x))) => [->|hne]; first by rewrite sibK // eqxx.
  by case/orP: (inv3 I hy' hr) => h; [rewrite h !orbT|rewrite b1 ?orbT].
- move=> z hz; case: (eqVneq (canon z) (canon x)) => [ec|hne].
    move=> _; case: (canon_eq hx hz (esym ec)) => ->; rewrite /addr; first by rewrite eqxx.
    by rewrite sibK // eqxx !orbT.
  rewrite L1 // => /(inv4 I hz); rewrite /addr.
  by case/orP => [/orP [] ->|->]; rewrite ?orbT.
- move=> y hy'; case: (eqVneq (canon y) (canon (pi x))) => [ec|hne].
    move=> _; rewrite !addr_inv ?port_sib //.
    by case: (canon_eq hy hy' (esym ec)) => ->; rewrite ?sibK // eqxx ?orbT.
  by rewrite R1 // => /(inv5 I hy'); rewrite /addr => /orP [] ->; rewrite ?orbT.
- by split; [apply: L3|move=> ho; apply: R3; apply: r6].
- by move=> z; rewrite /addr; case/orP: (inv7 I z) => ->; rewrite ?orbT.
- have [h1 h2] := inv8 I; split=> z.
    by case: (eqVneq z (canon x)) => [-> _|hne]; [exists x|rewrite L1 //; exact: h1].
  by case: (eqVneq z (canon (pi x))) => [-> _|hne]; [exists (pi x)|rewrite R1 //; exact: h2].
Qed.
End Level.
