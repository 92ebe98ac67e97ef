(** The loop of the AS-Waksman routing algorithm (one level). *)
From mathcomp Require Import all_ssreflect.
From Verif.Model Require Import Base OrderedMap IntegerPermutation AsWaksman.
From Verif.Proofs Require Import NatTac PermProofs WaksmanTopology WaksmanLevel.
Set Implicit Arguments.
Unset Strict Implicit.
Unset Printing Implicit Defensive.
Local Arguments aw_canonical : simpl never.
Local Arguments aw_other : simpl never.
Local Arguments aw_forward : simpl never.
Local Arguments aw_backward : simpl never.
Local Arguments aw_switch_output : simpl never.

Lemma obnd_some (A B : Type) (e : option A) (v : A) (f : A -> option B) : e = Some v -> obnd e f = f v.
Proof. by move=> ->. Qed.

Lemma rng lo n x : 2 < n -> lo <= x <= lo + n - 1 -> x - lo < n.
Proof. slia. Qed.
Lemma rng_eq a b x z : a <= x <= b -> a <= z <= b -> (z - a == x - a) = (z == x).
Proof. by move=> h1 h2; apply/eqP/eqP; slia. Qed.

Section Loop.
Variables (left right lo n : nat) (perm inve : iperm) (rt0 : aw_routing).
Hypothesis n2 : 2 < n.
Hypothesis lr : left != right.
Hypothesis left_ok : left < size rt0.
Hypothesis right_ok : right < size rt0.
Notation d := (n %/ 2).
Notation hi := (lo + n - 1)%N.
Notation canon := (aw_canonical lo).
Notation sib := (aw_other lo).
Notation port := (port lo n).
Notation topp := (topp lo).
Notation pos := (pos lo n).
Notation lastp := (lastp lo n).
Notation dec := (dec lo).
Variables (pi pinv : nat -> nat).
Hypothesis pi_port : forall x, port x -> port (pi x).
Hypothesis pinv_port : forall x, port x -> port (pinv x).
Hypothesis piK : forall x, port x -> pinv (pi x) = x.
Hypothesis pinvK : forall x, port x -> pi (pinv x) = x.
Hypothesis pi_last : odd n -> pi lastp = lastp.
Hypothesis perm_get : forall x, lo <= x <= hi -> ip_get perm x = Some (pi x).
Hypothesis inve_get : forall x, lo <= x <= hi -> ip_get inve x = Some (pinv x).
Notation inv := (inv lo n pi pinv).

Definition hid (r : nat -> bool) z := (z == canon hi) && (odd n || (r (pinv hi) && ~~ r (pinv (sib hi)))).

Record rel (st : aw_state) (r : nat -> bool) (L R : nat -> option bool) (np npi : nat -> nat) (mu : nat) : Prop := Rel {
  rel_np : [/\ ip_wf (aw_perm st), ip_min (aw_perm st) = lo, ip_max (aw_perm st) = hi &
             forall p, lo <= p <= hi -> ip_get (aw_perm st) p = Some (np p)];
  rel_npi : [/\ ip_wf (aw_inv st), ip_min (aw_inv st) = lo, ip_max (aw_inv st) = hi &
             forall p, lo <= p <= hi -> ip_get (aw_inv st) p = Some (npi p)];
  rel_r : size (aw_routed st) = n /\ forall x, lo <= x <= hi -> nth false (aw_routed st) (x - lo) = r x;
  rel_mu : aw_max st = mu /\ lo <= mu <= hi;
  rel_size : size (aw_r st) = size rt0;
  rel_L : forall z, lo <= z <= hi -> rf (aw_r st) left z = if odd n && (z == hi) then None else L z;
  rel_R : forall z, lo <= z <= hi -> rf (aw_r st) right z = if hid r z then None else R z;
  rel_frame : forall c z, ~~ (((c == left) || (c == right)) && (lo <= z <= hi)) -> rf (aw_r st) c z = rf rt0 c z }.

Lemma sw_hi x : port x -> canon x < lo + 2 * d -> x <= hi.
Proof.
case/portP => i [b [-> hi0]]; rewrite canon_form => h; have := n2; have := nE n; move: (n %/ 2) h hi0 => dd.
by case: (odd n) b => -[] /=; slia.
Qed.
Lemma port_lo x : port x -> lo <= x. Proof. by rewrite /WaksmanLevel.port; case/andP. Qed.
Lemma sw_range x : port x -> canon x < lo + 2 * d -> lo <= x <= hi.
Proof. by move=> h1 h2; rewrite port_lo // sw_hi. Qed.
Lemma sw_crange x : port x -> canon x < lo + 2 * d -> lo <= canon x <= hi.
Proof. by move=> h1 h2; apply: canon_range => //; apply: sw_hi. Qed.
Lemma sw_not_hi x : port x -> canon x < lo + 2 * d -> odd n && (canon x == hi) = false.
Proof.
move=> h1 h2; apply/negbTE; apply/negP => /andP [ho /eqP e]; move: h2; rewrite e; have := nE n; rewrite ho /=; slia.
Qed.

(** ** Moving one packet forward *)
Lemma forward_sem pm iv rd x mx l rt r L R np npi mu (R2 : nat -> option bool) :
  rel (AwState pm iv rd x mx l rt) r L R np npi mu -> port x -> canon x < lo + 2 * d ->
  let t := topp x (+) odflt false (L (canon x)) in let y := pi x in
  let L1 := upd L (canon x) (Some (odflt false (L (canon x)))) in
  (y = hi -> t = false) ->
  (y <> hi -> canon y < lo + 2 * d /\ rf rt right (canon y) = None) ->
  (forall z, lo <= z <= hi -> (if hid (addr r x) z then None else R2 z) =
     if (y != hi) && (z == canon y) then Some (topp y (+) t) else if hid r z then None else R z) ->
  exists st', [/\ aw_forward left right lo hi n perm (AwState pm iv rd x mx l rt) = Some st',
    rel st' (addr r x) L1 R2 (upd np (pos x t) (pos y t)) (upd npi (pos y t) (pos x t)) mu,
    aw_left st' = (y == hi) & aw_to_route st' = if y == hi then mu else sib y].
Proof.
move=> Hr hx hs t y L1 hy1 hy2 hR.
case: (Hr) => /= [[w1 m1 x1 g1] [w2 m2 x2 g2] [s3 r3] [m4 m4'] s5 l5 r5 f5].
have hxr := sw_range hx hs; have hxc := sw_crange hx hs.
have hpy : port y by apply: pi_port.
have hpr : lo <= pos x t <= hi by apply: pos_range => //; apply: proper_sw.
rewrite /aw_forward.
rewrite (obnd_some _ (aw_rget_ok (canon x) (_ : left < size rt))) ?s5 //.
have eL : rf rt left (canon x) = L (canon x) by rewrite l5 // sw_not_hi.
rewrite eL.
have [rt1 [e1 sz1 l1 f1]] : exists rt1, [/\ (if L (canon x) is Some _ then Some rt else aw_rset rt left (canon x) false) = Some rt1,
    size rt1 = size rt0, forall z, lo <= z <= hi -> rf rt1 left z = if odd n && (z == hi) then None else L1 z &
    forall c z, ~~ ((c == left) && (lo <= z <= hi)) -> rf rt1 c z = rf rt c z].
  have [//|rt1 [e1 sz1 f1]] := @aw_rset_ok rt left (canon x) false; first by rewrite s5.
  case E : (L (canon x)) => [b|]; [exists rt|exists rt1]; split=> //.
  - move=> z hz; rewrite l5 // /L1 /upd E /=; case: (eqVneq z (canon x)) => [->|//].
    by rewrite E.
  - by rewrite sz1.
  - move=> z hz; rewrite f1 eqxx l5 //= /L1 /upd E /=.
    by case: (eqVneq z (canon x)) => [->|//]; rewrite sw_not_hi.
  - by move=> c z h; rewrite f1; case: eqP h => [->|//]; rewrite /=; case: eqP => // ->; rewrite hxc.
rewrite (obnd_some _ e1).
cbv zeta.
have et : aw_decision_of_setting lo x (odflt false (L (canon x))) = t by rewrite /aw_decision_of_setting eq_sym.
rewrite et (obnd_some _ (switch_pos t hx hs)) (obnd_some _ (perm_get hxr)) -/y.
have hyr : lo <= pos y t <= hi.
  case: (eqVneq y hi) => [e|/eqP hne]; first by rewrite e hy1 // pos_hi //; slia.
  by apply: pos_range => //; apply: proper_sw => //; case: (hy2 hne).
have hA1 : ip_min pm <= pos x t <= ip_max pm by rewrite m1 x1.
have [np1 [en w1' mn1 mxn1 gn1]] := ip_set_ok (pos y t) w1 hA1.
have hA2 : ip_min iv <= pos y t <= ip_max iv by rewrite m2 x2.
have [npi1 [ei w2' mi1 mxi1 gi1]] := ip_set_ok (pos x t) w2 hA2.
have hA3 : x - lo < size rd by rewrite s3 rng.
have [rd1 [er sr1 gr1]] := @vset_ok _ false rd (x - lo) true hA3.
have np_rel : [/\ ip_wf np1, ip_min np1 = lo, ip_max np1 = hi & forall p, lo <= p <= hi -> ip_get np1 p = Some (upd np (pos x t) (pos y t) p)].
  split=> //; [by rewrite mn1|by rewrite mxn1|move=> p hp; rewrite gn1 ?m1 ?x1 // /upd].
  by case: eqP => // _; rewrite g1.
have npi_rel : [/\ ip_wf npi1, ip_min npi1 = lo, ip_max npi1 = hi & forall p, lo <= p <= hi -> ip_get npi1 p = Some (upd npi (pos y t) (pos x t) p)].
  split=> //; [by rewrite mi1|by rewrite mxi1|move=> p hp; rewrite gi1 ?m2 ?x2 // /upd].
  by case: eqP => // _; rewrite g2.
have r_rel : size rd1 = n /\ forall z, lo <= z <= hi -> nth false rd1 (z - lo) = addr r x z.
  split; first by rewrite sr1.
  move=> z hz; rewrite gr1 /addr r3 //.
  by rewrite (rng_eq hxr hz); case: eqP.
case: (eqVneq y hi) => [ey|hne].
  have eyt : pos y t = hi by rewrite ey hy1 // pos_hi.
  rewrite -[in ip_set pm _ hi]eyt (obnd_some _ en) -[in ip_set iv hi]eyt (obnd_some _ ei) (obnd_some _ er).
  exists (AwState np1 npi1 rd1 mx mx true rt1); split=> //.
  split=> //=.
  - move=> z hz; rewrite f1; last by rewrite negb_and eq_sym lr.
    by rewrite r5 // hR // ey eqxx.
  - move=> c z h; rewrite f1 ?f5 //; apply: contra h => /andP [-> ->] //.
  have [hs' hn'] := hy2 (elimN eqP hne).
  have hcy := sw_crange hpy hs'.
rewrite (obnd_some _ (aw_rget_ok (canon y) (_ : right < size rt1))) ?sz1 //.
have -> : rf rt1 right (canon y) = None by rewrite f1 // negb_and eq_sym lr.
rewrite /=.
have [//|rt2 [e2 sz2 f2]] := @aw_rset_ok rt1 right (canon y) (aw_setting_of_decision lo y t); first by rewrite sz1.
rewrite (obnd_some _ e2) /aw_switch_input (obnd_some _ (switch_pos t hpy hs')) (obnd_some _ en) (obnd_some _ ei) (obnd_some _ er).
exists (AwState np1 npi1 rd1 (sib y) mx false rt2); split=> //.
split=> //=.
- by rewrite sz2.
- by move=> z hz; rewrite f2 (negbTE lr) /= l1.
- move=> z hz; rewrite f2 eqxx hR // hne /=; case: eqP => // _.
  by rewrite f1 ?r5 // negb_and eq_sym lr.
- move=> c z h; rewrite f2 ifN; last by apply: contra h => /andP [-> /eqP ->]; rewrite hcy orbT.
  by rewrite f1 ?f5 //; apply: contra h => /andP [-> ->].
Qed.

(** ** Moving one packet backward *)
Lemma backward_sem pm iv rd y mx l rt r L R np npi mu t (R2 : nat -> option bool) :
  rel (AwState pm iv rd y mx l rt) r L R np npi mu -> port y -> canon y < lo + 2 * d ->
  let x := pinv y in
  canon x < lo + 2 * d -> hid r (canon y) = false -> dec R y = Some t -> (L (canon x) = None \/ dec L x = Some t) ->
  (forall z, lo <= z <= hi -> (if hid (addr r x) z then None else R z) = if hid r z then None else R z) ->
  exists st', [/\ aw_backward left right lo hi n inve (AwState pm iv rd y mx l rt) = Some st',
    rel st' (addr r x) (upd L (canon x) (Some (topp x (+) t))) R (upd np (pos x t) (pos y t)) (upd npi (pos y t) (pos x t)) mu,
    aw_left st' & aw_to_route st' = sib x].
Proof.
move=> Hr hy hs x hsx hh dR dL hR.
case: (Hr) => /= [[w1 m1 x1 g1] [w2 m2 x2 g2] [s3 r3] [m4 m4'] s5 l5 r5 f5].
have hyr := sw_range hy hs; have hyc := sw_crange hy hs.
have hx : port x by apply: pinv_port.
have hxr := sw_range hx hsx; have hxc := sw_crange hx hsx.
have hpx : lo <= pos x t <= hi by apply: pos_range => //; apply: proper_sw.
have hpy : lo <= pos y t <= hi by apply: pos_range => //; apply: proper_sw.
rewrite /aw_backward (obnd_some _ (inve_get hyr)) -/x.
rewrite (obnd_some _ (aw_rget_ok (canon y) (_ : right < size rt))) ?s5 //.
rewrite r5 // hh (dec_get dR); cbv beta iota zeta delta [obnd].
have et : aw_decision_of_setting lo y (topp y (+) t) = t.
  by rewrite /aw_decision_of_setting eq_sym -/(topp y) addbA addbb addFb.
rewrite et.
have ->: aw_rget rt left (canon x) = Some (rf rt left (canon x)) by apply: aw_rget_ok; rewrite s5.
have eL : rf rt left (canon x) = L (canon x) by rewrite l5 // sw_not_hi.
rewrite eL -/(topp x); cbv beta iota.
have -> : (L (canon x) == None) || (L (canon x) == Some (aw_setting_of_decision lo x t)).
  by case: dL => [->//|/dec_get ->]; rewrite /aw_setting_of_decision -/(topp x) eqxx orbT.
have [//|rt2 [-> sz2 f2]] := @aw_rset_ok rt left (canon x) (aw_setting_of_decision lo x t); first by rewrite s5.
rewrite /aw_switch_input (switch_pos t hy hs) (switch_pos t hx hsx).
have hA4 : ip_min pm <= pos x t <= ip_max pm by rewrite m1 x1.
have [np1 [-> w1' mn1 mxn1 gn1]] := ip_set_ok (pos y t) w1 hA4.
have hA5 : ip_min iv <= pos y t <= ip_max iv by rewrite m2 x2.
have [npi1 [-> w2' mi1 mxi1 gi1]] := ip_set_ok (pos x t) w2 hA5.
have hA6 : x - lo < size rd by rewrite s3 rng.
have [rd1 [-> sr1 gr1]] := @vset_ok _ false rd (x - lo) true hA6.
exists (AwState np1 npi1 rd1 (sib x) mx true rt2); split=> //.
split=> //=.
- split=> //; [by rewrite mn1|by rewrite mxn1|move=> p hp; rewrite gn1 ?m1 ?x1 // /upd].
  by case: eqP => // _; rewrite g1.
- split=> //; [by rewrite mi1|by rewrite mxi1|move=> p hp; rewrite gi1 ?m2 ?x2 // /upd].
  by case: eqP => // _; rewrite g2.
- split; first by rewrite sr1.
  move=> z hz; rewrite gr1 /addr r3 //.
  by rewrite (rng_eq hxr hz); case: eqP.
- by rewrite sz2.
- move=> z hz; rewrite f2 eqxx /= l5 // /upd; case: (eqVneq z (canon x)) => [->|//]; by rewrite sw_not_hi.
- by move=> z hz; rewrite f2 eq_sym (negbTE lr) /= r5 // hR.
- move=> c z h; rewrite f2 ifN ?f5 //; by apply: contra h => /andP [-> /eqP ->]; rewrite hxc.
Qed.

(** ** The loop *)
Definition openA (o : bool) mu : seq nat := if o then [:: mu] else [::].
Definition openB (o : bool) : seq nat := if o then [::] else [:: lastp].
Definition side (o : bool) : bool := if o then false else ~~ odd n.
Definition opened (o : bool) (r : nat -> bool) (L R : nat -> option bool) mu : Prop :=
  if o then [/\ r mu, ~~ r (sib mu) & dec L mu = Some false] else dec R lastp = Some (odd n).

Inductive good (r : nat -> bool) (L R : nat -> option bool) mu : bool -> nat -> seq nat -> seq nat -> Prop :=
| Gfresh : ~~ r mu -> good r L R mu true mu [::] [::]
| Gfwd o x : port x -> ~~ r x -> r hi -> opened o r L R mu -> dec L x = Some (side o) -> (o -> x != sib mu) ->
    good r L R mu true x (sib x :: openA o mu) (openB o)
| Gbwd o y : port y -> ~~ r (pinv y) -> r hi -> opened o r L R mu -> dec R y = Some (~~ side o) -> ~~ hid r (canon y) ->
    good r L R mu false y (openA o mu) (sib y :: openB o)
| Gclose : ~~ odd n -> r (pinv hi) -> r (pinv (sib hi)) -> good r L R mu false hi [::] [::].

Definition unrouted (r : nat -> bool) := count (fun x => ~~ r x) (iota lo n).
Lemma unrouted_add r x : lo <= x <= hi -> ~~ r x -> unrouted r = (unrouted (addr r x)).+1.
Proof.
move=> hx hr; rewrite /unrouted; have hin : x \in iota lo n by rewrite mem_iota; have := n2; slia.
have := iota_uniq lo n; elim: (iota lo n) hin => //= z s IH.
rewrite inE => /orP [/eqP <-|hin] /andP [hn hu].
  rewrite hr /addr eqxx /= add1n add0n; congr S; apply: eq_in_count => w hw /=.
  by case: eqP hw => // ->; rewrite (negbTE hn).
rewrite IH // addnS /addr; congr (_ + _).+1.
by case: (eqVneq z x) hn => // ->; rewrite hin.
Qed.
Definition meas r (left : bool) to := (2 * unrouted r + (~~ left && r (pinv to)))%N.

Definition post (st1 : aw_state) : option (bool * aw_state) :=
  olet again <- (if ~~ aw_left st1 then Some true else omap negb (vget (aw_routed st1) (aw_to_route st1 - lo)));
  if again then Some (false, st1) else
  olet k <- aw_down (aw_routed st1) (aw_max st1 - lo);
  olet first <- vget (aw_routed st1) 0;
  let mx := (lo + k)%N in
  let '(AwState np npi routed _ _ _ routing) := st1 in
  Some ((mx == lo) && first, AwState np npi routed mx mx true routing).
Lemma stepE st : aw_step left right lo hi n perm inve st =
  obnd (if aw_left st then aw_forward left right lo hi n perm st else aw_backward left right lo hi n inve st) post.
Proof. by []. Qed.

Lemma down_ok rd (r : nat -> bool) k : size rd = n -> (forall x, lo <= x <= hi -> nth false rd (x - lo) = r x) -> k < n ->
  exists j, [/\ aw_down rd k = Some j, j <= k, (forall z, j < z <= k -> r (lo + z)%N) & (j == 0) || ~~ r (lo + j)%N].
Proof.
move=> hs hr; elim: k => [|k IH] hk; first by exists 0; split=> // z; slia.
have e : nth false rd k.+1 = r (lo + k.+1)%N.
  by rewrite -hr ?addKn //; have := n2; slia.
rewrite /= -/(aw_down rd k) (@vget_nth _ false) ?hs //= e.
case E : (r _) => /=.
  have [|j [h1 h2 h3 h4]] := IH; first by slia.
  exists j; split=> //; first by slia.
  move=> z hz; case: (eqVneq z k.+1) => [->//|hne]; apply: h3; slia.
exists k.+1; split=> //; last by rewrite E orbT.
move=> z; slia.
Qed.

Lemma post_right st r L R np npi mu : rel st r L R np npi mu -> ~~ aw_left st -> post st = Some (false, st).
Proof. by move=> _ h; rewrite /post h. Qed.
Lemma post_unrouted st r L R np npi mu : rel st r L R np npi mu -> aw_left st -> lo <= aw_to_route st <= hi -> ~~ r (aw_to_route st) ->
  post st = Some (false, st).
Proof.
move=> Hr h ht hn; rewrite /post h /=; have [s3 r3] := rel_r Hr.
by rewrite (@vget_nth _ false) ?s3 ?rng //= r3 // hn.
Qed.
Lemma post_scan st r L R np npi mu : rel st r L R np npi mu -> aw_left st -> lo <= aw_to_route st <= hi -> r (aw_to_route st) ->
  (forall z, mu < z -> r z) ->
  exists mu' st', [/\ post st = Some ((mu' == lo) && r lo, st'), rel st' r L R np npi mu',
    aw_left st' /\ aw_to_route st' = mu', forall z, mu' < z -> r z & ((mu' == lo) && r lo) || ~~ r mu'] /\ (lo <= mu' <= mu).
Proof.
move=> Hr h ht hn ha; have [s3 r3] := rel_r Hr; have [m4 m4'] := rel_mu Hr.
have hk : aw_max st - lo < n by rewrite m4 rng.
have [j [e1 e2 e3 e4]] := down_ok s3 r3 hk.
rewrite /post h /= (@vget_nth _ false) ?s3 ?rng //= r3 // hn /= e1 /=.
have hl : lo <= lo <= hi by have := n2; slia.
rewrite (@vget_nth _ false) ?s3 //=; last by have := n2; slia.
have -> : nth false (aw_routed st) 0 = r lo by rewrite -r3 // subnn.
case: st Hr h ht hn s3 r3 m4 hk e1 e2 e3 => pm iv rd to mx l rt Hr /= h ht hn s3 r3 m4 hk e1 e2 e3.
exists (lo + j)%N, (AwState pm iv rd (lo + j) (lo + j) true rt); split; last by rewrite -m4; slia.
split=> //.
- case: Hr => /= *; split=> //=; split=> //; rewrite -m4 in m4'; move: hk e2; have := n2; slia.
- move=> z hz; case: (leqP z mu) => [hz'|]; last exact: ha.
  have -> : z = (lo + (z - lo))%N by slia.
  by apply: e3; rewrite m4; slia.
- case/orP: e4 => [/eqP ->|->]; rewrite ?orbT // addn0 eqxx /=; by case: (r lo).
Qed.

Lemma addr_above (r : nat -> bool) x mu : (forall z, mu < z -> r z) -> forall z, mu < z -> addr r x z.
Proof. by move=> h z hz; rewrite /addr h ?orbT. Qed.
Lemma mu_bottom (r : nat -> bool) mu : port mu -> (forall z, mu < z -> r z) -> ~~ r (sib mu) -> sib mu = mu.-1 /\ ~~ topp mu.
Proof.
move=> hp ha hn; have : sib mu <= mu by rewrite leqNgt; apply: contra hn; exact: ha.
case/portP: hp => i [b [-> hi0]]; by rewrite sib_form topp_form negbK; case: b => /= h; split=> //; slia.
Qed.
Lemma unrouted_sw r L R np npi A B x : inv r L R np npi A B -> (odd n -> r hi) -> port x -> ~~ r x -> canon x < lo + 2 * d.
Proof.
move=> I ho hx hr; case: (boolP (odd n)) => hn; last exact: canon_sw_even.
apply: canon_sw => // e; case: (canon_eq (port_hi lo n2) hx (esym e)) => ex; move: hr; rewrite ex ?ho //.
by case/orP: (inv7 I (sib hi)) => [->//|]; rewrite sib_hi // hn; have := n2; slia.
Qed.

(** what a step must establish *)
Definition step_ok (st : aw_state) (bound : nat) : Prop :=
  exists b st' r L R np npi mu A B, [/\ post st = Some (b, st'), rel st' r L R np npi mu, inv r L R np npi A B,
    (forall z, mu < z -> r z) & if b then forall x, port x -> r x else
      [/\ good r L R mu (aw_left st') (aw_to_route st') A B, (odd n -> r hi) & meas r (aw_left st') (aw_to_route st') < bound]].

Lemma step_intro st b st' r L R np npi mu A B bound : post st = Some (b, st') -> rel st' r L R np npi mu -> inv r L R np npi A B ->
  (forall z, mu < z -> r z) -> (if b then forall x, port x -> r x else
      [/\ good r L R mu (aw_left st') (aw_to_route st') A B, (odd n -> r hi) & meas r (aw_left st') (aw_to_route st') < bound]) ->
  step_ok st bound.
Proof. by move=> h1 h2 h3 h4 h5; exists b, st', r, L, R, np, npi, mu, A, B. Qed.

Lemma closed st r L R np npi mu A B bound : rel st r L R np npi mu -> inv r L R np npi A B -> (forall z, mu < z -> r z) -> A = [::] -> B = [::] ->
  (odd n -> r hi) -> aw_left st -> lo <= aw_to_route st <= hi -> (aw_to_route st = mu \/ r (aw_to_route st)) -> 2 * unrouted r < bound ->
  step_ok st bound.
Proof.
move=> Hr I ha eA eB ho hl ht hc hb; have [m4 m4'] := rel_mu Hr.
case: (boolP (r (aw_to_route st))) => hn; last first.
  exists false, st, r, L, R, np, npi, mu, A, B; split=> //; first by apply: (post_unrouted Hr).
  case: hc => [e|e]; last by rewrite e in hn.
  rewrite eA eB hl /meas /= addn0; split=> //.
  by rewrite e; apply: Gfresh; rewrite -e.
have [mu' [st' [[e1 Hr' [e2 e3] ha' e4] hmu']]] := post_scan Hr hl ht hn ha.
exists ((mu' == lo) && r lo), st', r, L, R, np, npi, mu', A, B; split=> //.
case: ifP => h.
  case/andP: h => /eqP h1 h2 x hx; case: (eqVneq x lo) => [->//|hne]; apply: ha'; rewrite h1.
  by have := port_lo hx; slia.
rewrite h /= in e4; rewrite eA eB e2 e3 /meas /= addn0; split=> //.
exact: Gfresh.
Qed.

Let Phi : port hi := port_hi lo n2.
Lemma canon_hi_odd : odd n -> canon hi = (lo + 2 * d)%N.
Proof. by move=> ho; rewrite canon_hi // ho /=; have := nE n; rewrite ho /=; have := n2; slia. Qed.
Lemma last_routed r L R np npi A B : inv r L R np npi A B -> odd n -> r lastp.
Proof. by move=> I ho; case/orP: (inv7 I lastp) => //; rewrite /WaksmanLevel.lastp ho /=; have := n2; slia. Qed.
Lemma right_none r L R np npi A B y : inv r L R np npi A B -> port y -> ~~ r (pinv y) -> ~~ r (pinv (sib y)) -> R (canon y) = None.
Proof.
move=> I hy h1 h2; case E : (R _) => [b|] //; have h : R (canon y) <> None by rewrite E.
by have := inv5 I hy h; rewrite (negbTE h1) (negbTE h2).
Qed.
Lemma pinv_last : odd n -> pinv lastp = lastp.
Proof. by move=> ho; rewrite -{1}(pi_last ho) piK // port_last. Qed.
Lemma hid_add r x z : port x -> z <> canon (pi x) -> hid (addr r x) z = hid r z.
Proof.
move=> hx hz; rewrite /hid; case: (eqVneq z (canon hi)) => //= e.
have hs := port_sib Phi.
rewrite !(addr_inv piK pinvK) //.
have -> : (hi == pi x) = false by apply/eqP => e'; apply: hz; rewrite -e'.
have -> // : (sib hi == pi x) = false.
by apply/eqP => e'; apply: hz; rewrite -e' (canon_sib Phi).
Qed.
Lemma hid_same r x : port x -> pi x <> hi -> canon (pi x) < lo + 2 * d -> hid (addr r x) (canon (pi x)) = false.
Proof.
move=> hx hy hs; rewrite /hid; case: eqP => //= e.
case: (boolP (odd n)) => hn /=; first by move: hs; rewrite e canon_hi_odd // ltnn.
case: (canon_eq Phi (pi_port hx) (esym e)) => // e'.
by rewrite !(addr_inv piK pinvK) ?port_sib // -e' eqxx /= andbF.
Qed.
Lemma dec_mono (M M' : nat -> option bool) x t : (forall z, M z <> None -> M' z = M z) -> dec M x = Some t -> dec M' x = Some t.
Proof. by rewrite /WaksmanLevel.dec => h e; rewrite h //; case: (M _) e. Qed.
Lemma upd_other (A : Type) (f : nat -> A) a v z : z != a -> upd f a v z = f z.
Proof. by rewrite /upd => /negbTE ->. Qed.
Lemma upd_mono (M : nat -> option bool) a v : M a = None \/ M a = Some v -> forall z, M z <> None -> upd M a (Some v) z = M z.
Proof. by rewrite /upd => h z; case: eqP => // ->; case: h => ->. Qed.

Lemma opened_mono o r L R R' mu : opened o r L R mu -> (forall z, R z <> None -> R' z = R z) -> opened o r L R' mu.
Proof. by case: o => //= h1 h2; apply: (dec_mono h2). Qed.

Lemma opened_add o r L L' R mu x : opened o r L R mu -> (forall z, L z <> None -> L' z = L z) -> (o -> x != sib mu) ->
  opened o (addr r x) L' R mu.
Proof.
case: o => //= -[o1 o2 o3] h1 h2; split; [by rewrite /addr o1 orbT| |exact: (dec_mono h1)].
by rewrite /addr negb_or o2 andbT eq_sym h2.
Qed.

Lemma fwd_step st r L R np npi mu A B o x : rel st r L R np npi mu -> inv r L R np npi A B -> (forall z, mu < z -> r z) ->
  (odd n -> r hi) -> port mu -> aw_left st -> aw_to_route st = x -> port x -> ~~ r x -> addr r x hi ->
  topp x (+) odflt false (L (canon x)) = side o ->
  (forall z, z \in A -> z != sib x -> z \in openA o mu) -> r (sib x) || (x \in openA o mu) -> B = openB o ->
  opened o (addr r x) (upd L (canon x) (Some (odflt false (L (canon x))))) R mu ->
  exists st1, aw_forward left right lo hi n perm st = Some st1 /\ step_ok st1 (meas r true x).
Proof.
move=> Hr I ha ho hmu hl hto hx hnr hhi hside hA1 hA2 eB hop.
case: st Hr hl hto => pm iv rd to mx l rt Hr /= hl hto; subst to.
have hsw := unrouted_sw I ho hx hnr.
have hxr := sw_range hx hsw; have hxh := sw_hi hx hsw.
have hy := pi_port hx.
have hyh := pi_hi n2 pi_port piK pi_last hx hxh.
have ery : r (pinv (pi x)) = false by rewrite piK // (negbTE hnr).
have hu := unrouted_add hxr hnr.
set L1 := upd L (canon x) _ in hop.
have L1a : forall z, z != canon x -> L1 z = L z by move=> z; apply: upd_other.
have L1b : forall z, L z <> None -> L1 z = L z.
  by apply: upd_mono; case: (L (canon x)) => [b|]; [right|left].
have L1c : dec L1 x = Some (side o).
  by rewrite /WaksmanLevel.dec /L1 /upd eqxx /= hside.
have bnd : 2 * unrouted (addr r x) < meas r true x by rewrite /meas /= hu; slia.
have hof : odd n -> addr r x hi by move=> _.
have ha' : forall z, mu < z -> addr r x z by apply: addr_above.
have SF R2 := @forward_sem pm iv rd x mx l rt r L R np npi mu R2 Hr hx hsw.
rewrite /= hside -/L1 in SF.
have RO R2 A' B' := @route_one lo n n2 pi pinv pi_port piK pinvK pi_last r L R np npi A B x (side o) L1 R2 A' B' I hx hxh L1a L1b.
case: (eqVneq (pi x) hi) => [ey|/eqP hne].
  rewrite ey eqxx in SF RO ery.
  case: o hside hA1 hA2 eB hop L1c SF RO => /= hside hA1 hA2 eB hop L1c SF RO.
    case: hop => o1 o2 o3.
    (* opened on the left: the even case *)
    case: (boolP (odd n)) => hn.
      have h := @inv3 _ _ _ _ _ _ _ _ _ _ _ I (sib hi) (port_sib Phi).
      rewrite (sibK Phi) ery eB /= in h.
      by move: h; rewrite -last_odd // pinv_last // (last_routed I hn) => /(_ isT).
    have hsib : r (pinv (sib hi)) = false.
      apply/negP => h; have := inv3 I (port_sib Phi) h; by rewrite (sibK Phi) ery eB.
    have hR0 : R (canon hi) = None by apply: (right_none I) => //; rewrite ?ery ?hsib.
    have h1 : forall z, hid (addr r x) z = (z == canon hi).
      move=> z; rewrite /hid !(addr_inv piK pinvK) ?port_sib // ey eqxx (negbTE hn) hsib orbF /=.
      by rewrite (negbTE (sib_neq Phi)) andbT.
    have h2 : forall z, hid r z = false by move=> z; rewrite /hid ery (negbTE hn) andbF.
    have [//|//|z hz|st1 [e1 Hr1 l1 t1]] := SF (upd R (canon hi) (Some (topp hi (+) false))).
      by rewrite h1 h2 /upd; case: eqP => // ->.
    exists st1; split=> //.
    have I1 : inv (addr r x) L1 (upd R (canon hi) (Some (topp hi (+) false))) (upd np (pos x false) (pos hi false))
        (upd npi (pos hi false) (pos x false)) [:: mu] [:: hi].
      apply: RO => //.
      - by move=> z; apply: upd_other.
      - by apply: upd_mono; left.
      - exact: dec_upd.
      - by rewrite eB.
      - by rewrite mem_head orbT.
    have [m1 m2] := mu_bottom hmu ha' o2.
    have hmuh : lo <= mu <= hi by have [_] := rel_mu Hr.
    have t1r : lo <= aw_to_route st1 <= hi by rewrite t1.
    have l1' : aw_left st1 by rewrite l1.
    have r1 : addr r x (aw_to_route st1) by rewrite t1.
    have [mu' [st' [[p1 p2 [p3 p4] p5 p6] p7]]] := post_scan Hr1 l1' t1r r1 ha'.
    have hps := port_sib hmu.
    have emu : mu' = sib mu.
      have h3 : sib mu <= mu' by rewrite leqNgt; apply: contra o2; exact: p5.
      have h4 : mu' != mu.
        apply/eqP => e; move: p6; rewrite e o1 orbF => /andP [/eqP e' _].
        by have := port_lo hps; have := sib_neq hmu; rewrite m1 -e'; slia.
      by move: h3 h4; rewrite m1; slia.
    have eb : (mu' == lo) && addr r x lo = false.
      by case: eqP => //= e; rewrite -e emu (negbTE o2).
    rewrite eb in p1; apply: (step_intro p1 p2 I1 p5).
    rewrite p3 p4; split=> //; last by rewrite /meas /= addn0.
    have eA : [:: mu] = sib (sib mu) :: openA false mu' by rewrite (sibK hmu).
    have eBB : [:: hi] = openB false by rewrite /openB last_even.
    rewrite eA eBB emu; apply: (@Gfwd _ _ _ _ false) => //=.
    - rewrite last_even // (negbTE hn); apply: dec_set; rewrite /upd eqxx //.
    - by rewrite (dec_sibS hmu o3) (negbTE hn).
  case: (boolP (odd n)) => hn; last first.
    have h1 : R (canon hi) <> None by move: hop; rewrite last_even // => /dec_get ->.
    have := inv5 I Phi h1; rewrite ery /= => h2; have := inv3 I (port_sib Phi) h2.
    by rewrite (sibK Phi) ery eB last_even // inE (negbTE (sib_neq Phi)).
  rewrite hn /= in SF RO L1c.
  have [//|//|z hz|st1 [e1 Hr1 l1 t1]] := SF R.
    by rewrite /hid hn.
  exists st1; split=> //.
  have hmuh : lo <= mu <= hi by have [_] := rel_mu Hr.
  have I1 : inv (addr r x) L1 R (upd np (pos x false) (pos hi false)) (upd npi (pos hi false) (pos x false)) [::] [::].
    apply: RO => //.
    - by have [_] := inv6 I; apply.
    - by rewrite eB => z; rewrite inE last_odd // => /eqP ->; rewrite eqxx.
    - by rewrite -last_odd // pinv_last // (last_routed I hn).
  apply: (closed Hr1 I1) => //; [by rewrite t1|by left].
have hysw : canon (pi x) < lo + 2 * d.
  case: (boolP (odd n)) => hn; last exact: canon_sw_even.
  apply: canon_sw => // e; case: (canon_eq Phi hy (esym e)) => // e'.
  move: e'; rewrite -last_odd // -{1}(pi_last hn) => /(pi_inj piK hx (port_last lo n2)) e'.
  by rewrite e' (last_routed I hn) in hnr.
have hsy := port_sib hy.
have hne' := introF eqP hne.
have ne1 : (pi x != hi) by rewrite hne'.
rewrite hne' in SF.
case: (boolP (r (pinv (sib (pi x))))) => hrs.
  have := inv3 I hsy hrs; rewrite (sibK hy) ery eB.
  case: o hside hA1 hA2 eB hop L1c SF RO => //= hside hA1 hA2 eB hop L1c SF RO; rewrite inE => /eqP el.
  case: (boolP (odd n)) => hn.
    by case: hne; move: el; rewrite last_odd // => /(sib_inj hy Phi).
  rewrite (negbTE hn) /= in hop SF RO L1c.
  have el' : pi x = sib hi by rewrite -(sibK hy) el last_even.
  have ec : canon (pi x) = canon hi by rewrite el' (canon_sib Phi).
  have hrh : r (pinv hi) by rewrite -(last_even lo hn) -el.
  have hnrs : r (pinv (sib hi)) = false by rewrite -el'.
  have dy : dec R (pi x) = Some true.
    by rewrite el' (dec_sibS Phi (_ : _ = Some false)) // -(last_even lo hn).
  have hidx z : hid (addr r x) z = false.
    by rewrite /hid (negbTE hn) !(addr_inv piK pinvK) ?port_sib // -el' eqxx /= !andbF.
  have hidr z : hid r z = (z == canon (pi x)) by rewrite /hid (negbTE hn) hrh hnrs ec andbT.
  have [//|_|z hz|st1 [e1 Hr1 l1 t1]] := SF R.
  - by split=> //; rewrite (rel_R Hr) ?sw_crange // hidr eqxx.
  - by rewrite hidx hidr; case: eqP => // ->; exact: dec_get.
  exists st1; split=> //.
  have I1 : inv (addr r x) L1 R (upd np (pos x true) (pos (pi x) true)) (upd npi (pos (pi x) true) (pos x true)) [::] [::].
    apply: RO => //; last by rewrite hrs.
    by rewrite eB => z; rewrite inE el => /eqP ->; rewrite eqxx.
  have p1 : post st1 = Some (false, st1) by apply: (post_right Hr1); rewrite l1.
  apply: (step_intro p1 Hr1 I1 ha').
  rewrite l1 t1 el last_even //; split=> //.
    by apply: Gclose; rewrite ?(addr_inv piK pinvK) ?port_sib //; [rewrite hrh orbT|rewrite -el' eqxx].
  by rewrite /meas hu /= (addr_inv piK pinvK) // hrh orbT /=; slia.
have hR0 : R (canon (pi x)) = None by apply: (right_none I) => //; rewrite ery.
set R2 := upd R (canon (pi x)) (Some (topp (pi x) (+) side o)).
have [//|_|z hz|st1 [e1 Hr1 l1 t1]] := SF R2.
- by split=> //; rewrite (rel_R Hr) ?sw_crange // hR0; case: ifP.
- rewrite /= /R2 /upd; case: eqP => [->|hz']; first by rewrite hid_same.
  by rewrite hid_add.
exists st1; split=> //.
have R2b : forall z, R z <> None -> R2 z = R z by apply: upd_mono; left.
have R2d : dec R2 (pi x) = Some (side o) by exact: dec_upd.
have I1 : inv (addr r x) L1 R2 (upd np (pos x (side o)) (pos (pi x) (side o))) (upd npi (pos (pi x) (side o)) (pos x (side o)))
    (openA o mu) (pi x :: openB o).
  apply: RO => //.
  - by move=> z; apply: upd_other.
  - by move=> z; rewrite eB inE => ->; rewrite orbT.
  - by rewrite mem_head orbT.
have p1 : post st1 = Some (false, st1) by apply: (post_right Hr1); rewrite l1.
apply: (step_intro p1 Hr1 I1 ha').
have hns : addr r x (pinv (sib (pi x))) = false.
  by rewrite (addr_inv piK pinvK) // (negbTE (sib_neq hy)) (negbTE hrs).
rewrite l1 t1; split=> //; last by move: bnd; rewrite /meas /= hns !addn0.
rewrite -{2}(sibK hy); apply: Gbwd => //.
- by rewrite hns.
- exact: (opened_mono hop).
- exact: (dec_sibS hy R2d).
- by rewrite (canon_sib hy) hid_same.
Qed.

Lemma bwd_step st r L R np npi mu A B o y : rel st r L R np npi mu -> inv r L R np npi A B -> (forall z, mu < z -> r z) ->
  port mu -> aw_to_route st = y -> port y -> ~~ r (pinv y) -> r hi -> opened o r L R mu ->
  dec R y = Some (~~ side o) -> ~~ hid r (canon y) -> A = openA o mu -> B = sib y :: openB o ->
  exists st1, aw_backward left right lo hi n inve st = Some st1 /\ step_ok st1 (meas r false y).
Proof.
move=> Hr I ha hmu hto hy hnr hhi hop dR hh eA eB.
case: st Hr hto => pm iv rd to mx l rt Hr /= hto; subst to.
have hx := pinv_port hy.
set x := pinv y in hnr hx.
have exy : pi x = y by rewrite /x pinvK.
have hsw := unrouted_sw I (fun _ => hhi) hx hnr.
have hxr := sw_range hx hsw; have hxh := sw_hi hx hsw.
have hysw : canon y < lo + 2 * d.
  case: (boolP (odd n)) => hn; last exact: canon_sw_even.
  by apply: canon_sw => // e; move: hh; rewrite /hid e eqxx hn.
have hrs : r (pinv (sib y)).
  have hne : R (canon y) <> None by rewrite (dec_get dR).
  by have := inv5 I hy hne; rewrite -/x (negbTE hnr).
have dL : L (canon x) = None \/ dec L x = Some (~~ side o).
  case: (boolP (r (sib x))) => hs.
    have := inv2 I (port_sib hx) hs; rewrite (sibK hx) (negbTE hnr) eA /=.
    case: o {dR eA eB} hop => //= -[o1 o2 o3]; rewrite inE => /eqP e; right.
    by rewrite -(sibK hx) e (dec_sibS hmu o3).
  left; case E : (L _) => [b|] //; have hne : L (canon x) <> None by rewrite E.
  have := inv4 I hx hne; rewrite (negbTE hnr) (negbTE hs) /= => /andP [/andP [_ /eqP e] _].
  by case: (canon_eq Phi hx (esym e)) => e'; [move: hnr|move: hs]; rewrite e' ?(sibK Phi) hhi.
set L1 := upd L (canon x) (Some (topp x (+) ~~ side o)).
have L1a : forall z, z != canon x -> L1 z = L z by move=> z; apply: upd_other.
have L1b : forall z, L z <> None -> L1 z = L z.
  by apply: upd_mono; case: dL => [|/dec_get]; [left|right].
have L1c : dec L1 x = Some (~~ side o) by exact: dec_upd.
have hidz z : lo <= z <= hi -> (if hid (addr r x) z then None else R z) = if hid r z then None else R z.
  move=> hz; case: (eqVneq z (canon y)) => [->|/eqP hne]; last by rewrite hid_add // exy.
  rewrite (negbTE hh) /hid; case: eqP => //= e.
  case: (boolP (odd n)) => hn /=; first by move: hh; rewrite /hid e eqxx hn.
  rewrite !(addr_inv piK pinvK) ?port_sib // exy.
  case: (canon_eq Phi hy (esym e)) => e'; last by rewrite -e' eqxx /= andbF.
  by move: hrs; rewrite e' => ->; rewrite orbT andbF.
have [st1 [e1 Hr1 l1 t1]] := @backward_sem pm iv rd y mx l rt r L R np npi mu (~~ side o) R Hr hy hysw hsw (negbTE hh) dR dL hidz.
rewrite -/x -/L1 in Hr1 t1.
exists st1; split=> //.
have hu := unrouted_add hxr hnr.
have hof : addr r x hi by rewrite /addr hhi orbT.
have ha' : forall z, mu < z -> addr r x z by apply: addr_above.
have hsx := port_sib hx.
have hsxsw : canon (sib x) < lo + 2 * d by rewrite (canon_sib hx).
have tr : lo <= aw_to_route st1 <= hi by rewrite t1; apply: sw_range.
have bnd : 2 * unrouted (addr r x) < meas r false y by rewrite /meas /= hu -/x (negbTE hnr) /=; slia.
have RO A' := @route_one lo n n2 pi pinv pi_port piK pinvK pi_last r L R np npi A B x (~~ side o) L1 R A' (openB o) I hx hxh L1a L1b
  (fun _ _ => erefl) (fun _ _ => erefl) L1c.
rewrite exy in RO.
have RB : forall z, z \in B -> z != sib y -> z \in openB o.
  by move=> z; rewrite eB inE => /orP [/eqP ->|//]; rewrite eqxx.
have RB' : r (pinv (sib y)) || (y \in openB o) by rewrite hrs.
case: (boolP (r (sib x))) => hs.
  have := inv2 I hsx hs; rewrite (sibK hx) (negbTE hnr) eA /= => hin.
  have [eo emu] : o = true /\ sib x = mu by move: hin; case: (o) => //=; rewrite inE => /eqP.
  have I1 := RO [::].
  apply: (closed Hr1 (I1 dR _ _ RB RB')) => //.
  - by move=> z; rewrite eA eo inE -emu => /eqP ->; rewrite eqxx.
  - by rewrite hs.
  - by rewrite eo.
  - by right; rewrite t1 /addr hs orbT.
have hns : addr r x (sib x) = false by rewrite /addr (negbTE (sib_neq hx)) (negbTE hs).
have I1 := RO (x :: openA o mu) dR.
have p1 : post st1 = Some (false, st1) by apply: (post_unrouted Hr1) => //; rewrite t1 hns.
apply: (step_intro p1 Hr1 (I1 _ _ RB RB') ha') => //.
- by move=> z; rewrite eA inE => -> _; rewrite orbT.
- by rewrite mem_head orbT.
rewrite l1 t1; split=> //; last by move: bnd; rewrite /meas /= !addn0.
rewrite -{3}(sibK hx); apply: Gfwd => //.
- by rewrite hns.
- apply: (opened_add hop L1b) => eo; apply/eqP => e; move: hop; rewrite eo => -[o1 _ _].
  by move: hs; rewrite e (sibK hmu) o1.
- by rewrite (dec_sibS hx L1c) negbK.
- move=> ho; apply/eqP => /(sib_inj hx hmu) e; move: hop; rewrite ho /= => -[o1 _ _].
  by move: hnr; rewrite e o1.
Qed.

Lemma close_step st r L R np npi mu : rel st r L R np npi mu -> inv r L R np npi [::] [::] -> (forall z, mu < z -> r z) ->
  aw_to_route st = hi -> ~~ odd n -> r (pinv hi) -> r (pinv (sib hi)) ->
  exists st1, aw_backward left right lo hi n inve st = Some st1 /\ step_ok st1 (meas r false hi).
Proof.
move=> Hr I ha hto hn h1 h2.
case: st Hr hto => pm iv rd to mx l rt Hr /= hto; subst to.
have hx := pinv_port Phi.
set x := pinv hi in h1 hx.
have exy : pi x = hi by rewrite /x pinvK.
have hsw := canon_sw_even hx hn.
have hxh := sw_hi hx hsw.
have [t [dL dR _]] := inv1 I hx h1; rewrite exy in dR.
have aid z : addr r x z = r z by rewrite /addr; case: eqP => // ->; rewrite h1.
have hidz z : lo <= z <= hi -> (if hid (addr r x) z then None else R z) = if hid r z then None else R z.
  by move=> _; rewrite /hid !aid.
have hh : hid r (canon hi) = false by rewrite /hid (negbTE hn) h2 /= !andbF.
have dL' : L (canon x) = None \/ dec L x = Some t by right.
have [st1 [e1 Hr1 l1 t1]] := @backward_sem pm iv rd hi mx l rt r L R np npi mu t R Hr Phi (canon_sw_even Phi hn) hsw hh dR dL' hidz.
exists st1; split=> //.
rewrite -/x in Hr1 t1.
set L1 := upd L (canon x) _ in Hr1.
have L1a : forall z, z != canon x -> L1 z = L z by move=> z; apply: upd_other.
have L1b : forall z, L z <> None -> L1 z = L z by apply: upd_mono; right; exact: dec_get.
have L1c : dec L1 x = Some t by exact: dec_upd.
have RO := @route_one lo n n2 pi pinv pi_port piK pinvK pi_last r L R np npi [::] [::] x t L1 R [::] [::] I hx hxh L1a L1b
  (fun _ _ => erefl) (fun _ _ => erefl) L1c.
rewrite exy in RO.
have hs : r (sib x) by have := inv2 I hx h1; rewrite orbF.
have hsx := port_sib hx.
apply: (closed Hr1 (RO dR _ _ _ _)) => //.
- by rewrite hs.
- by rewrite h2.
- exact: addr_above.
- by move=> ho; rewrite ho in hn.
- by rewrite t1; apply: sw_range => //; apply: canon_sw_even.
- by right; rewrite t1 aid.
- rewrite /meas /= -/x h1 /=.
  have -> : unrouted (addr r x) = unrouted r by apply: eq_count => z; rewrite /= aid.
  slia.
Qed.

Lemma step_good st r L R np npi mu A B : rel st r L R np npi mu -> inv r L R np npi A B -> (forall z, mu < z -> r z) -> (odd n -> r hi) ->
  good r L R mu (aw_left st) (aw_to_route st) A B ->
  exists b st' r' L' R' np' npi' mu' A' B', [/\ aw_step left right lo hi n perm inve st = Some (b, st'), rel st' r' L' R' np' npi' mu',
    inv r' L' R' np' npi' A' B', (forall z, mu' < z -> r' z) & if b then forall x, port x -> r' x else
      [/\ good r' L' R' mu' (aw_left st') (aw_to_route st') A' B', (odd n -> r' hi) &
          meas r' (aw_left st') (aw_to_route st') < meas r (aw_left st) (aw_to_route st)]].
Proof.
move=> Hr I ha ho G.
have [_ hmr] := rel_mu Hr; have hmu : port mu by apply: port_le.
suff [st1 [e1 [b [st' [r' [L' [R' [np' [npi' [mu' [A' [B' [h1 h2 h3 h4 h5]]]]]]]]]]]]]: exists st1,
   (if aw_left st then aw_forward left right lo hi n perm st else aw_backward left right lo hi n inve st) = Some st1 /\
   step_ok st1 (meas r (aw_left st) (aw_to_route st)).
  exists b, st', r', L', R', np', npi', mu', A', B'; split=> //.
  by rewrite stepE e1.
have [l el] : exists l, aw_left st = l by exists (aw_left st).
have [tr et] : exists t, aw_to_route st = t by exists (aw_to_route st).
rewrite el et in G *; case: G I el et => {A B l tr}.
- move=> hn I el et.
  have hsn : ~~ r (sib mu).
    by apply/negP => h; have := inv2 I (port_sib hmu) h; rewrite (sibK hmu) (negbTE hn).
  have [_ ht] := mu_bottom hmu ha hsn.
  have hL : odflt false (L (canon mu)) = false.
    case E : (L _) => [b|] //=; have hne : L (canon mu) <> None by rewrite E.
    have := inv4 I hmu hne; rewrite (negbTE hn) (negbTE hsn) /= => /andP [_]; rewrite E => /eqP [->] //.
  apply: (@fwd_step st r L R np npi mu [::] [::] true mu) => //.
  + rewrite /addr; case: (ltngtP hi mu) => [h|h|->]; rewrite ?eqxx //; last by rewrite ha ?orbT.
    by move: hmr; slia.
  + by rewrite hL (negbTE ht).
  + by rewrite mem_head orbT.
  + rewrite hL /=; split; rewrite /addr ?eqxx //.
      by rewrite negb_or hsn andbT (sib_neq hmu).
    by rewrite /WaksmanLevel.dec /upd eqxx /= (negbTE ht).
- move=> o x hx hn hhi hop dL hne I el et.
  have eL := dec_get dL.
  have eU z : upd L (canon x) (Some (odflt false (L (canon x)))) z = L z.
    by rewrite /upd; case: eqP => // ->; rewrite eL.
  have hsr : r (sib x).
    have hne' : L (canon x) <> None by rewrite eL.
    have := inv4 I hx hne'; rewrite (negbTE hn) /=; case/orP => // /andP [/andP [_ /eqP e] _].
    case: (canon_eq Phi hx (esym e)) => e'; first by move: hn; rewrite e' hhi.
    by rewrite e' (sibK Phi).
  apply: (@fwd_step st r L R np npi mu (sib x :: openA o mu) (openB o) o x) => //.
  + by rewrite /addr hhi orbT.
  + by rewrite eL /= addbA addbb addFb.
  + by move=> z; rewrite inE => /orP [/eqP ->|//]; rewrite eqxx.
  + by rewrite hsr.
  + by apply: (opened_add hop).
- move=> o y hy hn hhi hop dR hh I el et.
  exact: (@bwd_step st r L R np npi mu (openA o mu) (sib y :: openB o) o y).
- move=> hn h1 h2 I el et.
  exact: (@close_step st r L R np npi mu).
Qed.

Lemma loop_ok fuel st r L R np npi mu A B : rel st r L R np npi mu -> inv r L R np npi A B -> (forall z, mu < z -> r z) -> (odd n -> r hi) ->
  good r L R mu (aw_left st) (aw_to_route st) A B -> meas r (aw_left st) (aw_to_route st) < fuel ->
  exists st' r' L' R' np' npi' mu' A' B', [/\ aw_loop fuel left right lo hi n perm inve st = Some st', rel st' r' L' R' np' npi' mu',
    inv r' L' R' np' npi' A' B' & forall x, port x -> r' x].
Proof.
elim: fuel st r L R np npi mu A B => // fuel IH st r L R np npi mu A B Hr I ha ho G hm.
have [b [st' [r' [L' [R' [np' [npi' [mu' [A' [B' [h1 h2 h3 h4 h5]]]]]]]]]]] := step_good Hr I ha ho G.
rewrite /= h1 /=; case: b h1 h5 => /= h1 h5.
  by exists st', r', L', R', np', npi', mu', A', B'.
case: h5 => g1 g2 g3.
apply: (IH _ _ _ _ _ _ _ _ _ h2 h3 h4 g2 g1); slia.
Qed.
End Loop.
