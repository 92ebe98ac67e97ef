(** The Benes routing algorithm realises the permutation. *)
From mathcomp Require Import all_ssreflect.
From Verif.Model Require Import Base IntegerPermutation Benes.
From Verif.Proofs Require Import NatTac PermProofs.
Set Implicit Arguments.
Unset Strict Implicit.
Unset Printing Implicit Defensive.

(** ** Bits *)
Section Bits.
Variable k : nat.
Let m0 : 0 < 2 ^ k. Proof. by rewrite expn_gt0. Qed.
Definition dst (x : nat) (top : bool) := if top then clear_bit k x else set_bit k x.

Lemma bit_le x : bit k x -> 2 ^ k <= x.
Proof.
rewrite /bit => h; rewrite leqNgt; apply/negP => lt.
by rewrite divn_small // in h.
Qed.
Lemma add_div x : (x + 2 ^ k) %/ 2 ^ k = (x %/ 2 ^ k).+1.
Proof. by rewrite divnDr ?dvdnn // divnn m0 addn1. Qed.
Lemma sub_div x : bit k x -> (x - 2 ^ k) %/ 2 ^ k = (x %/ 2 ^ k).-1.
Proof. by move=> /bit_le h; rewrite -{2}(subnK h) add_div. Qed.
Lemma bit_add x : bit k (x + 2 ^ k) = ~~ bit k x.
Proof. by rewrite /bit add_div /=. Qed.
Lemma bit_sub x : bit k x -> bit k (x - 2 ^ k) = false.
Proof. by move=> h; have := bit_add (x - 2 ^ k); rewrite subnK ?bit_le // h; case: (bit _ _). Qed.
Lemma bit_flip x : bit k (flip_bit k x) = ~~ bit k x.
Proof. by rewrite /flip_bit; case: ifP => h; [rewrite bit_sub | rewrite bit_add h]. Qed.
Lemma flip_flip x : flip_bit k (flip_bit k x) = x.
Proof.
rewrite {1}/flip_bit bit_flip; case h: (bit k x); rewrite /= /flip_bit h; first by rewrite subnK // bit_le.
by rewrite addnK.
Qed.
Lemma flip_neq x : flip_bit k x != x.
Proof. by apply/eqP => h; have := bit_flip x; rewrite h; case: bit. Qed.
Lemma dst_cases x b : dst x b = if x != dst x b then flip_bit k x else x.
Proof.
rewrite /dst /clear_bit /set_bit /flip_bit; case: b; case: ifP => h; rewrite ?eqxx //=; case: eqP => // e.
Qed.
Lemma dst_bit x b : bit k (dst x b) = ~~ b.
Proof. by rewrite /dst /clear_bit /set_bit; case: b; case: ifP => // h; [rewrite bit_sub | rewrite bit_add h]. Qed.
Lemma dst_id x b : x = dst x b \/ flip_bit k x = dst x b.
Proof. by rewrite (dst_cases x b); case: ifP => _; [right | left]. Qed.
Lemma dst_inj x y b b' : dst x b = dst y b' -> b = b' /\ (y = x \/ y = flip_bit k x).
Proof.
move=> e; have eb : b = b' by have := dst_bit x b; rewrite e dst_bit; case: b {e}; case: b'.
split=> //; have [h|h] := dst_id x b; have [h'|h'] := dst_id y b'; move: e; rewrite -h -h' => e.
- by left.
- by right; rewrite e flip_flip.
- by right.
- by left; rewrite -[x]flip_flip e flip_flip.
Qed.
Lemma dst_flip x b : dst (flip_bit k x) b = dst x b.
Proof.
have := bit_flip x; rewrite /dst /clear_bit /set_bit /flip_bit.
by case: b; case hx: (bit k x) => /= ->; rewrite ?addnK // subnK // bit_le.
Qed.
(** going from [dst x b] by a switch set as [x != dst x b] leads back to [x] *)
Lemma dst_back x b : (if x != dst x b then flip_bit k (dst x b) else dst x b) = x.
Proof.
case: eqP => [<- //|h] /=; have [//|<-] := dst_id x b; exact: flip_flip.
Qed.
Lemma dst_half x b : dst x b %/ 2 ^ k = (~~ b + (x %/ 2 ^ k.+1).*2)%N.
Proof.
have -> : x %/ 2 ^ k.+1 = (x %/ 2 ^ k)./2 by rewrite expnSr divnMA -divn2.
have := odd_double_half (x %/ 2 ^ k); rewrite -/(bit k x) /dst /clear_bit /set_bit.
case: b; case: ifP => hb e; rewrite ?sub_div ?add_div //; move: e; move: (x %/ 2 ^ k) => d.
all: by move=> e; rewrite -[in LHS]e.
Qed.
End Bits.

Lemma flip_blk k h x : k < h -> flip_bit k x %/ 2 ^ h = x %/ 2 ^ h.
Proof.
move=> lt; have E y : y %/ 2 ^ h = (y %/ 2 ^ k.+1) %/ 2 ^ (h - k.+1) by rewrite -divnMA -expnD subnKC.
rewrite !E; congr (_ %/ _); rewrite expnSr !divnMA; rewrite /flip_bit; case: ifP => hb.
  rewrite sub_div //; move: hb; rewrite /bit; move: (x %/ 2 ^ k) => d od.
  by rewrite -(odd_double_half d) od /= !divn2 doubleK -[1 + _]/(_.*2.+1) -[_.*2.+1]addn1 addnC (half_bit_double _ true).
rewrite add_div; move: hb; rewrite /bit; move: (x %/ 2 ^ k) => d od.
by rewrite -(odd_double_half d) od /= !divn2 add0n doubleK -[_.*2.+1]addn1 addnC (half_bit_double _ true).
Qed.

Lemma blk_range h q x : (x %/ 2 ^ h == q) = (q * 2 ^ h <= x <= q * 2 ^ h + 2 ^ h - 1).
Proof.
have m0 : 0 < 2 ^ h by rewrite expn_gt0.
rewrite eqn_leq -ltnS ltn_divLR // leq_divRL // mulSn andbC; congr (_ && _).
by rewrite [(2 ^ h + _)%N]addnC; apply/idP/idP; slia.
Qed.

(** ** Routing tables *)
Definition rg (R : benes_routing) c x := nth false (nth [::] R c) x.
Definition shape (C N : nat) (R : benes_routing) := size R = C /\ forall c, c < C -> size (nth [::] R c) = N.

Lemma rset_ok C N R c x b : shape C N R -> c < C -> x < N ->
  exists R', [/\ rset R c x b = Some R', shape C N R' & forall c' x', rg R' c' x' = if (c' == c) && (x' == x) then b else rg R c' x'].
Proof.
move=> [sR sc] hc hx; rewrite /rset (vget_nth [::]) ?sR //=.
have [|col [-> s1 s2]] := @vset_ok _ false (nth [::] R c) x b; first by rewrite sc.
have [|R' [/= -> s3 s4]] := @vset_ok _ [::] R c col; first by rewrite sR.
exists R'; split=> //.
  split; first by rewrite s3.
  by move=> c' hc'; rewrite s4; case: eqP => _; rewrite ?s1 sc.
by move=> c' x'; rewrite /rg s4; case: eqP => //= ->; rewrite s2.
Qed.

(** ** Walking through columns *)
Section Walk.
Variable dim : nat.
Definition bstep (R : benes_routing) c x := if rg R c x then flip_bit (benes_mask_bit dim c) x else x.
Fixpoint walk R c n x := if n is n'.+1 then walk R c.+1 n' (bstep R c x) else x.

Lemma walk_last R c n x : walk R c n.+1 x = bstep R (c + n) (walk R c n x).
Proof.
elim: n c x => [|n IH] c x; first by rewrite addn0.
by rewrite -[LHS]/(walk R c.+1 n.+1 (bstep R c x)) IH addSnnS.
Qed.

Lemma walk_blk R R' h q c n x :
  (forall c', c <= c' < c + n -> benes_mask_bit dim c' < h) ->
  (forall c' y, c <= c' < c + n -> y %/ 2 ^ h = q -> rg R c' y = rg R' c' y) ->
  x %/ 2 ^ h = q -> walk R c n x = walk R' c n x /\ walk R c n x %/ 2 ^ h = q.
Proof.
elim: n c x => //= n IH c x hb hr hx.
have hc : c <= c < c + n.+1 by slia.
rewrite /bstep (hr c) //; apply: IH => [c' h'|c' y h'|].
- by apply: hb; slia.
- by apply: hr; slia.
- by case: ifP => // _; rewrite flip_blk // hb.
Qed.
End Walk.

Lemma mask_start dim k : k < dim -> benes_mask_bit dim (dim - k.+1) = k.
Proof. move=> h; rewrite /benes_mask_bit; have -> : dim - k.+1 < dim by slia. by slia. Qed.
Lemma mask_stop dim k : benes_mask_bit dim (dim + k.+1 - 1) = k.
Proof.
rewrite /benes_mask_bit; have -> : (dim + k.+1 - 1 = dim + k)%N by slia.
by rewrite ltnNge leq_addr /= addKn.
Qed.
Lemma mask_mid dim h c : dim - h <= c -> c < dim + h -> h <= dim -> benes_mask_bit dim c < h.
Proof. by rewrite /benes_mask_bit => h1 h2 h3; case: (ltnP c dim) => h4; slia. Qed.

Lemma rng_start dim k : k < dim -> dim - k.+1 < 2 * dim.
Proof. slia. Qed.
Lemma rng_stop dim k : k < dim -> dim + k.+1 - 1 < 2 * dim.
Proof. slia. Qed.
Lemma start_stop dim k : k < dim -> (dim - k.+1 == dim + k.+1 - 1) = false.
Proof. slia. Qed.

Arguments dst : simpl never.
Arguments benes_lhs_packet_destination : simpl never.
Arguments benes_rhs_packet_source : simpl never.
Arguments benes_get_switch_setting_from_subnetwork : simpl never.
Arguments benes_packet_cross_destination : simpl never.
Arguments benes_packet_cross_source : simpl never.

(** ** The loop *)
Section Loop.
Variables (dim k q : nat) (perm pinv : iperm) (R0 : benes_routing).
Hypothesis kd : k < dim.
Let N := 2 ^ k.+1.
Let o := (q * N)%N.
Let start := (dim - k.+1)%N.
Let stop := (dim + k.+1)%N.
Hypothesis qd : q < 2 ^ (dim - k.+1).
Definition inb x := x %/ N == q.
Variables (pi pii : nat -> nat).
Hypothesis piP : forall x, inb x -> [/\ ip_get perm x = Some (pi x), inb (pi x) & pii (pi x) = x].
Hypothesis piiP : forall x, inb x -> [/\ ip_get pinv x = Some (pii x), inb (pii x) & pi (pii x) = x].
Local Notation D := (dst k).
Local Notation sib := (flip_bit k).

Let N0 : 0 < N. Proof. by rewrite expn_gt0. Qed.
Lemma inb_range x : inb x = (o <= x <= o + N - 1). Proof. exact: blk_range. Qed.
Lemma inb_dim x : inb x -> x < 2 ^ dim.
Proof.
rewrite inb_range => h.
have e : 2 ^ dim = (2 ^ (dim - k.+1) * N)%N by rewrite -expnD subnK.
have l : (q.+1 * N <= 2 ^ (dim - k.+1) * N)%N by rewrite leq_mul2r qd orbT.
by rewrite e; apply: leq_trans l; rewrite mulSn -/o; move: h N0; move: (o) (N) => o' N'; slia.
Qed.
Lemma inb_sib x : inb x -> inb (sib x).
Proof. by rewrite /inb /N flip_blk. Qed.
Lemma inb_dst x b : inb x -> inb (D x b).
Proof. by move=> h; have [<-|<-] := dst_id k x b => //; apply: inb_sib. Qed.
Lemma sib_inj x y : sib x = sib y -> x = y.
Proof. by move=> h; rewrite -[x](flip_flip k) h flip_flip. Qed.

Definition pt u := pii (sib (pi u)).
Lemma pt_inb u : inb u -> inb (pt u).
Proof. by move=> h; have [_ h1 _] := piP h; have [_ h2 _] := piiP (inb_sib h1). Qed.
Lemma pi_pt u : inb u -> pi (pt u) = sib (pi u).
Proof. by move=> h; have [_ h1 _] := piP h; have [_ _ h2] := piiP (inb_sib h1). Qed.
Lemma pt_pt u : inb u -> pt (pt u) = u.
Proof. by move=> h; rewrite {1}/pt pi_pt // flip_flip; have [_ _ ->] := piP h. Qed.
Lemma pi_inj u v : inb u -> inb v -> pi u = pi v -> u = v.
Proof. by move=> hu hv e; have [_ _ <-] := piP hu; have [_ _ <-] := piP hv; rewrite e. Qed.
Lemma pt_neq u : inb u -> pt u <> u.
Proof. by move=> h e; have := pi_pt h; rewrite e => e2; have := flip_neq k (pi u); rewrite -e2 eqxx. Qed.

Definition routed (lr : seq bool) u := nth false lr (u - o).

Record good (st : benes_state) (c : nat -> bool) : Prop := Good {
  g_shape : shape (2 * dim) (2 ^ dim) (bs_routing st);
  g_frame : forall c' x, ~~ (((c' == start) || (c' == stop - 1)) && inb x) -> rg (bs_routing st) c' x = rg R0 c' x;
  g_size : size (bs_lhs_routed st) = N;
  g_np : [/\ ip_wf (bs_perm st), ip_min (bs_perm st) = o & ip_max (bs_perm st) = (o + N - 1)%N];
  g_npi : [/\ ip_wf (bs_perm_inv st), ip_min (bs_perm_inv st) = o & ip_max (bs_perm_inv st) = (o + N - 1)%N];
  g_rt : forall u, inb u -> routed (bs_lhs_routed st) u ->
    [/\ rg (bs_routing st) start u = (u != D u (c u)),
        ip_get (bs_perm st) (D u (c u)) = Some (D (pi u) (c u)),
        ip_get (bs_perm_inv st) (D (pi u) (c u)) = Some (D u (c u)) &
        rg (bs_routing st) (stop - 1) (D (pi u) (c u)) = (pi u != D (pi u) (c u))];
  g_pt : forall u, inb u -> routed (bs_lhs_routed st) u -> routed (bs_lhs_routed st) (pt u) /\ c (pt u) = ~~ c u;
  g_sib : forall u, inb u -> routed (bs_lhs_routed st) u -> routed (bs_lhs_routed st) (sib u) -> c (sib u) = ~~ c u }.

Record inv (st : benes_state) (c : nat -> bool) (s : nat) : Prop := Inv {
  i_good : good st c;
  i_w : inb (bs_w st) /\ ~~ routed (bs_lhs_routed st) (bs_w st);
  i_last : o <= bs_last_unrouted st <= o + N /\ forall u, inb u -> u < bs_last_unrouted st -> routed (bs_lhs_routed st) u;
  i_sin : inb s;
  i_s : (bs_w st = s /\ ~~ routed (bs_lhs_routed st) (sib (bs_w st))) \/
        [/\ routed (bs_lhs_routed st) s, c s = true, routed (bs_lhs_routed st) (sib (bs_w st)) & c (sib (bs_w st)) = false];
  i_close : forall u, inb u -> routed (bs_lhs_routed st) u ->
     [\/ routed (bs_lhs_routed st) (sib u), sib u = bs_w st | u = s] }.

Lemma routed_set lr lr' x u : inb x -> inb u ->
  (forall j, nth false lr' j = if j == (x - o)%N then true else nth false lr j) ->
  routed lr' u = (u == x) || routed lr u.
Proof.
rewrite !inb_range => hx hu h; rewrite /routed h.
have -> : (u - o == x - o) = (u == x) by apply/eqP/eqP; slia.
by case: (u == x).
Qed.

Lemma step_ok st c s : inv st c s ->
  exists b st', [/\ benes_step dim perm pinv start stop o N st = Some (b, st'),
     count id (bs_lhs_routed st') = (count id (bs_lhs_routed st)).+2 &
     if b then exists2 c', good st' c' & forall u, inb u -> routed (bs_lhs_routed st') u
     else exists c' s', inv st' c' s'].
Proof.
case=> [[gsh gfr gsz [np1 np2 np3] [ni1 ni2 ni3] grt gpt gsib] [win wnr] [la1 la2] sin ss cl].
set w := bs_w st in win wnr ss cl *; set lr := bs_lhs_routed st in gsz grt gpt gsib wnr la2 ss cl *.
have [pw wp piw] := piP win.
set wp' := pi w in pw wp piw *.
rewrite /benes_step -/w pw /=.
have dl x b : benes_lhs_packet_destination dim start x b = D x b by rewrite /benes_lhs_packet_destination mask_start.
have dr x b : benes_rhs_packet_source dim stop x b = D x b by rewrite /benes_rhs_packet_source /benes_lhs_packet_destination mask_stop.
have sl x b : benes_get_switch_setting_from_subnetwork dim start x b = (x != D x b) by rewrite /benes_get_switch_setting_from_subnetwork dl.
have sr x b : benes_get_switch_setting_from_subnetwork dim (stop - 1) x b = (x != D x b).
  by rewrite /benes_get_switch_setting_from_subnetwork /benes_lhs_packet_destination mask_stop.
have cd x : benes_packet_cross_destination dim start x = sib x by rewrite /benes_packet_cross_destination mask_start.
have cr x : benes_packet_cross_source dim stop x = sib x by rewrite /benes_packet_cross_source /benes_packet_cross_destination mask_stop.
have E := (dl, dr, sl, sr, cd, cr).
rewrite ?E.
have hst : start < 2 * dim by apply: rng_start.
have hsp : stop - 1 < 2 * dim by apply: rng_stop.
have sneq : (start == stop - 1) = false by apply: start_stop.
have sneq' : (stop - 1 == start) = false by rewrite eq_sym.
have vin0 : inb (sib wp') by apply: inb_sib.
have [pv vin piv] := piiP vin0.
have ev : pii (sib wp') = pt w by [].
set v := pt w in ev vin piv pv *; rewrite ev in pv vin piv.
have wv : v <> w by apply: pt_neq.
have vnr : ~~ routed lr v.
  by apply/negP => rv; have [+ _] := gpt _ vin rv; rewrite pt_pt // (negbTE wnr).
have inr x : inb x -> x - o < N by rewrite inb_range; move: N0; slia.
(* routing[start][w] *)
have [R1 [-> sh1 h1]] := @rset_ok _ _ (bs_routing st) start w (w != D w true) gsh hst (inb_dim win); rewrite /= ?E.
have rngp x : inb x -> ip_min (bs_perm st) <= x <= ip_max (bs_perm st) by rewrite inb_range np2 np3.
have rngi x : inb x -> ip_min (bs_perm_inv st) <= x <= ip_max (bs_perm_inv st) by rewrite inb_range ni2 ni3.
have [P1 [-> P1w P1a P1b P1g]] := ip_set_ok (D wp' true) np1 (rngp _ (inb_dst true win)); rewrite /= ?E.
have [|l1 [-> l1s l1n]] := @vset_ok _ false lr (w - o) true; first by rewrite gsz inr.
rewrite /= ?E.
have [R2 [-> sh2 h2]] := @rset_ok _ _ R1 (stop - 1) (D wp' true) (wp' != D wp' true) sh1 hsp (inb_dim (inb_dst true wp)); rewrite /= ?E.
have [Q1 [-> Q1w Q1a Q1b Q1g]] := ip_set_ok (D w true) ni1 (rngi _ (inb_dst true wp)); rewrite /= ?E.
rewrite ?E pv /= ?E (vget_nth false) ?l1s ?gsz ?inr //=.
have r1 u : inb u -> routed l1 u = (u == w) || routed lr u by move=> hu; apply: routed_set.
have -> : nth false l1 (v - o) = false.
  by rewrite -/(routed l1 v) r1 // (negbTE vnr) orbF; apply/eqP.
have [R3 [-> sh3 h3]] := @rset_ok _ _ R2 (stop - 1) (D (sib wp') false) (sib wp' != D (sib wp') false) sh2 hsp (inb_dim (inb_dst false vin0)); rewrite /= ?E.
have rngi' x : inb x -> ip_min Q1 <= x <= ip_max Q1 by rewrite inb_range Q1a Q1b ni2 ni3.
have [Q2 [-> Q2w Q2a Q2b Q2g]] := ip_set_ok (D v false) Q1w (rngi' _ (inb_dst false vin0)); rewrite /= ?E.
have [R4 [-> sh4 h4]] := @rset_ok _ _ R3 start v (v != D v false) sh3 hst (inb_dim vin); rewrite /= ?E.
have rngp' x : inb x -> ip_min P1 <= x <= ip_max P1 by rewrite inb_range P1a P1b np2 np3.
have [P2 [-> P2w P2a P2b P2g]] := ip_set_ok (D (sib wp') false) P1w (rngp' _ (inb_dst false vin)); rewrite /= ?E.
have [|l2 [-> l2s l2n]] := @vset_ok _ false l1 (v - o) true; first by rewrite l1s gsz inr.
rewrite /= ?E (vget_nth false); last by rewrite l2s l1s gsz inr // inb_sib.
have r2 u : inb u -> routed l2 u = [|| u == v, u == w | routed lr u].
  by move=> hu; rewrite (routed_set vin hu l2n) r1.
have cnt : count id l2 = (count id lr).+2.
  have cset (l l' : seq bool) i : i < size l -> size l' = size l -> nth false l i = false ->
      (forall j, nth false l' j = if j == i then true else nth false l j) -> count id l' = (count id l).+1.
    elim: l l' i => [|x l IH] [|y l'] [|i] //= hi [sl'] hn hj.
      have := hj 0; rewrite /= => ->; rewrite hn add1n add0n; congr (_.+1).
      by congr (count id _); apply: (@eq_from_nth _ false) => // j _; have := hj j.+1.
    have := hj 0; rewrite /= => ->; rewrite (IH l' i) ?addnS // => j.
    by have := hj j.+1; rewrite /= eqSS.
  rewrite (cset l1 l2 (v - o)) ?(cset lr l1 (w - o)) //; rewrite ?l1s ?gsz ?inr //; first exact: negbTE.
  by rewrite -/(routed l1 v) r1 // (negbTE vnr) orbF; apply/eqP.
pose c' x := if x == w then true else if x == v then false else c x.
have vw : (v == w) = false by apply/eqP.
have cw : c' w = true by rewrite /c' eqxx.
have cv : c' v = false by rewrite /c' vw eqxx.
have co u : inb u -> routed lr u -> c' u = c u.
  by move=> hu ru; rewrite /c'; case: eqP => [e|_]; [rewrite e (negbTE wnr) in ru | case: eqP => [e|//]; rewrite e (negbTE vnr) in ru].
have sibw : routed lr (sib w) -> c (sib w) = false.
  by case: ss => [[_ /negbTE->]|[]].
have gd : forall a b, good (BenesState R4 l2 a b P2 Q2) c'.
  move=> a b; split=> //=.
  - move=> x y hxy; rewrite h4 h3 h2 h1.
    have ny z : inb z -> (x == start) || (x == stop - 1) -> (y == z) = false.
      by move=> hz hx; apply/eqP => e; rewrite e hz hx in hxy.
    case: eqP => [e|_] /=.
      have H z : inb z -> (y == z) = false by move=> hz; apply: ny => //; rewrite e eqxx.
      by rewrite e in hxy *; rewrite sneq /= !H // gfr.
    case: eqP => [e|_] /=; last by rewrite gfr.
    have H z : inb z -> (y == z) = false by move=> hz; apply: ny => //; rewrite e eqxx orbT.
    by rewrite e in hxy *; rewrite !H ?inb_dst // gfr.
  - by rewrite l2s l1s.
  - by split=> //; rewrite ?P2a ?P2b ?P1a ?P1b.
  - by split=> //; rewrite ?Q2a ?Q2b ?Q1a ?Q1b.
  - move=> u hu; rewrite r2 // => ru.
    have getP x : inb x -> ip_get P2 x = if x == D v false then Some (D (sib wp') false) else
        if x == D w true then Some (D wp' true) else ip_get (bs_perm st) x.
      by move=> hx; rewrite P2g ?rngp' //; case: (x == _) => //; rewrite P1g ?rngp.
    have getQ x : inb x -> ip_get Q2 x = if x == D (sib wp') false then Some (D v false) else
        if x == D wp' true then Some (D w true) else ip_get (bs_perm_inv st) x.
      by move=> hx; rewrite Q2g ?rngi' //; case: (x == _) => //; rewrite Q1g ?rngi.
    have tf x y : (D x true == D y false) = false.
      by apply/eqP => e; have [] := dst_inj e.
    have ft x y : (D x false == D y true) = false by rewrite eq_sym tf.
    have [e|[e|ru']] : u = v \/ (u = w \/ routed lr u).
      by case/or3P: ru => [/eqP->|/eqP->|->]; auto.
    + rewrite {}e cv piv !h4 !h3 !h2 !h1 !eqxx ?sneq ?sneq' /= ?eqxx ?vw.
      rewrite getP ?inb_dst // eqxx getQ ?inb_dst // eqxx; split=> //.
    + rewrite {}e cw -/wp' !h4 !h3 !h2 !h1 !eqxx ?sneq ?sneq' /= ?eqxx [w == v]eq_sym vw ?tf.
      rewrite getP ?inb_dst // tf eqxx getQ ?inb_dst // tf eqxx; split=> //.
    + rewrite co //; have [a1 a2 a3 a4] := grt _ hu ru'; have [_ pu _] := piP hu.
      have nuw : u <> w by move=> e; rewrite e (negbTE wnr) in ru'.
      have nuv : u <> v by move=> e; rewrite e (negbTE vnr) in ru'.
      have x1 : D u (c u) == D v false = false.
        apply/eqP => e; have [cu [e'|e']] := dst_inj e; first by apply: nuv.
        have rs : routed lr (sib u) = false by rewrite -e'; apply: negbTE.
        have [] := cl _ hu ru'; rewrite ?rs // -?e' // => eus.
        case: ss => [[ws _]|[_ cs _ _]]; last by rewrite eus cs in cu.
        by move: ru'; rewrite eus -ws (negbTE wnr).
      have x2 : D u (c u) == D w true = false.
        apply/eqP => e; have [cu [e'|e']] := dst_inj e; first by apply: nuw.
        have e2 : u = sib w by rewrite e' flip_flip.
        by move: cu; rewrite e2 sibw // -e2.
      have ptu : forall z, inb z -> ~~ routed lr z -> ~~ routed lr (pt z) -> forall b, D (pi u) (c u) == D (pi z) b = false.
        move=> z hz nz npz b0; apply/eqP => e; have [cu [e'|e']] := dst_inj e.
          by have ez := pi_inj hz hu e'; rewrite -ez (negbTE nz) in ru'.
        have : pi (pt u) = pi z by rewrite pi_pt.
        move/(pi_inj (pt_inb hu) hz) => e2; rewrite -e2 pt_pt // in npz.
        by rewrite ru' in npz.
      have x3 : D (pi u) (c u) == D (sib wp') false = false.
        by rewrite -(pi_pt win); apply: ptu; rewrite ?pt_pt.
      have x4 : D (pi u) (c u) == D wp' true = false by apply: ptu.
      have nuw' : (u == w) = false by apply/eqP.
      have nuv' : (u == v) = false by apply/eqP.
      rewrite !h4 !h3 !h2 !h1 ?x3 ?x4 ?nuw' ?nuv' ?andbF getP ?inb_dst // x1 x2 getQ ?inb_dst // x3 x4.
      by split=> //; rewrite ?sneq ?sneq'.
  - move=> u hu; rewrite r2 // => /or3P[/eqP->|/eqP->|ru].
    + by rewrite /v pt_pt // -/v cv cw r2 // eqxx orbT.
    + by rewrite -/v cv cw r2 // eqxx.
    + have [a1 a2] := gpt _ hu ru; rewrite r2 ?pt_inb // a1 !orbT; split=> //.
      by rewrite !co ?pt_inb.
  - have sw : sib w = v -> sib v = w by move=> <-; rewrite flip_flip.
    have sibv : routed lr (sib v) -> c (sib v) = true.
      move=> rsv; have := cl _ (inb_sib vin) rsv; rewrite flip_flip (negbTE vnr) => -[] // es.
      by case: ss => [[ws _]|[_ cs _ _]]; [rewrite es -ws (negbTE wnr) in rsv | rewrite es].
    move=> u hu; rewrite !r2 ?inb_sib // => /or3P[/eqP->|/eqP->|ru] /or3P[/eqP e|/eqP e|rs].
    + by have := flip_neq k v; rewrite e eqxx.
    + by rewrite e cv cw.
    + by rewrite (co _ (inb_sib vin) rs) cv sibv.
    + by rewrite e cv cw.
    + by have := flip_neq k w; rewrite e eqxx.
    + by rewrite (co _ (inb_sib win) rs) cw sibw.
    + rewrite e cv co //; have eu : u = sib v by rewrite -e flip_flip.
      by rewrite eu sibv // -eu.
    + rewrite e cw co //; have eu : u = sib w by rewrite -e flip_flip.
      by rewrite eu sibw // -eu.
    + by rewrite !co ?inb_sib //; apply: gsib.
have sibvs : routed lr (sib v) -> sib v = s.
  by move=> rsv; have := cl _ (inb_sib vin) rsv; rewrite flip_flip (negbTE vnr) => -[].
have ssv : sib v = w -> w = s.
  move=> e; case: ss => [[] //|[_ _ rw _]].
  by move: rw; rewrite -e flip_flip (negbTE vnr).
have rs2 : routed l2 s.
  by rewrite r2 //; case: ss => [[-> _]|[-> _ _ _]]; rewrite ?eqxx ?orbT.
have cs2 : c' s = true.
  case: ss => [[<- _]|[rs cs _ _]] //; by rewrite co.
have cl2 u : inb u -> routed l2 u -> routed l2 (sib u) \/ (u = v \/ u = s).
  move=> hu; rewrite !r2 ?inb_sib // => /or3P[/eqP->|/eqP->|ru].
  - by right; left.
  - case: ss => [[ws _]|[_ _ -> _]]; [by right; right | by left; rewrite !orbT].
  - have [->|->|->] := cl _ hu ru; [by left; rewrite !orbT | by left; rewrite eqxx orbT | by right; right].
rewrite -/(routed l2 (sib v)); case: (boolP (routed l2 (sib v))) => rsv /=; last first.
  eexists false, _; split; [reflexivity | by [] |]; exists c', s; split=> //=.
  - by split=> //; apply: inb_sib.
  - by split=> // u hu lu; rewrite r2 // la2 ?orbT.
  - right; rewrite flip_flip; split=> //; by rewrite r2 // eqxx.
  - move=> u hu ru; have [h|[->|->]] := cl2 _ hu ru; [exact: Or31 | exact: Or32 | exact: Or33].
(* the cycle is closed *)
have vs : sib v = s.
  move: rsv; rewrite r2 ?inb_sib // => /or3P[/eqP e|/eqP e|]; last exact: sibvs.
    by have := flip_neq k v; rewrite e eqxx.
  by rewrite e; apply: ssv.
have closed u : inb u -> routed l2 u -> routed l2 (sib u).
  move=> hu ru; have [//|[->//|->]] := cl2 _ hu ru.
  by rewrite -vs flip_flip r2 // eqxx.
set last' := (bs_last_unrouted st + find negb (drop (bs_last_unrouted st - o) l2))%N.
have fsz : find negb (drop (bs_last_unrouted st - o) l2) <= N - (bs_last_unrouted st - o).
  by rewrite (leq_trans (find_size _ _)) // size_drop l2s l1s gsz.
have la' : o <= last' <= o + N.
  by rewrite /last'; move: fsz (la1); move: (find _ _) => f; slia.
have pre u : inb u -> u < last' -> routed l2 u.
  move=> hu lu; case: (ltnP u (bs_last_unrouted st)) => hlu; first by rewrite r2 // la2 ?orbT.
  have hf : u - bs_last_unrouted st < find negb (drop (bs_last_unrouted st - o) l2).
    by move: lu; rewrite /last'; move: (find _ _) => f; slia.
  have := before_find false hf => /negbFE; rewrite nth_drop.
  have -> // : (bs_last_unrouted st - o + (u - bs_last_unrouted st) = u - o)%N.
  by move: la1; slia.
case: eqP => [e|ne].
  eexists true, _; split; [reflexivity | by [] |]; exists c' => //= u hu.
  by apply: pre => //; rewrite e; move: hu; rewrite inb_range; move: N0; slia.
have la3 : last' < o + N by move: la'; slia.
have lin : inb last' by rewrite inb_range; move: la'; slia.
have lnr : ~~ routed l2 last'.
  have hf : has negb (drop (bs_last_unrouted st - o) l2).
    rewrite has_find size_drop l2s l1s gsz; move: la3 la1 fsz; rewrite /last'; move: (find _ _) => f; slia.
  have := nth_find false hf; rewrite nth_drop /routed.
  have -> // : (bs_last_unrouted st - o + find negb (drop (bs_last_unrouted st - o) l2) = last' - o)%N.
  by rewrite /last'; move: (find _ _) la1 => f; slia.
eexists false, _; split; [reflexivity | by [] |]; exists c', last'; split=> //=.
- left; split=> //; apply/negP => h; have := closed _ (inb_sib lin) h.
  by rewrite flip_flip (negbTE lnr).
- by move=> u hu ru; apply: Or31; apply: closed.
Qed.

Lemma loop_ok fuel st c s : inv st c s -> N <= count id (bs_lhs_routed st) + 2 * fuel ->
  exists st', benes_loop fuel dim perm pinv start stop o N st = Some st' /\
    exists2 c', good st' c' & forall u, inb u -> routed (bs_lhs_routed st') u.
Proof.
elim: fuel st c s => [|fuel IH] st c s iv hf /=.
  have [[_ _ sz _ _ _ _ _] [win wnr] _ _ _ _] := iv.
  have lt : count id (bs_lhs_routed st) < N.
    rewrite -sz ltn_neqAle count_size andbT; apply/eqP => e.
    have /all_nthP ha : all id (bs_lhs_routed st) by rewrite all_count e.
    move: wnr; rewrite /routed; have := ha false (bs_w st - o)%N; rewrite sz => -> //.
    by move: win; rewrite inb_range; move: N0; slia.
  by move: hf lt; rewrite muln0 addn0; move: (count _ _) => x; slia.
have [b [st' [-> cnt h]]] := step_ok iv; rewrite /=.
case: b h => [h|[c' [s' iv']]]; first by exists st'.
by apply: (IH _ _ _ iv'); rewrite cnt; move: hf; move: (count _ _) => x; slia.
Qed.
End Loop.

Lemma half_eq d q : (d./2 == q) = (d == q.*2) || (d == q.*2.+1).
Proof.
have := odd_double_half d; move: (d./2) => e; case: (odd d) => /= h.
  have -> : (d == q.*2) = false by slia.
  by apply/eqP/eqP; slia.
have -> : (d == q.*2.+1) = false by slia.
by rewrite orbF; apply/eqP/eqP; slia.
Qed.

(** ** The recursion *)
Lemma inner_ok dim h fuel q R perm pinv :
  h <= dim -> q < 2 ^ (dim - h) -> h <= fuel -> shape (2 * dim) (2 ^ dim) R ->
  ip_wf perm -> ip_min perm = (q * 2 ^ h)%N -> ip_max perm = (q * 2 ^ h + 2 ^ h - 1)%N -> ip_is_valid perm ->
  ip_inverse perm = Some pinv ->
  exists R', [/\ route_benes_inner fuel dim perm pinv (dim - h) (dim + h) (q * 2 ^ h) (2 ^ h) R = Some R',
    shape (2 * dim) (2 ^ dim) R',
    (forall c x, ~~ ((dim - h <= c < dim + h) && (x %/ 2 ^ h == q)) -> rg R' c x = rg R c x) &
    forall x j, ip_get perm x = Some j -> walk dim R' (dim - h) (2 * h) x = j].
Proof.
elim: h fuel q R perm pinv => [|k IH] fuel q R perm pinv hd hq hf sh wf mn mx va hinv.
  have asz : ip_size perm = 2 ^ 0 by rewrite /ip_size mn mx; move: (q * _)%N => o; rewrite expn0; slia.
  exists R; split=> //.
    by case: fuel hf => [|fuel] _ /=; rewrite asz va hinv !eqxx /= subn0 addn0 eqxx.
  move=> x j e; have := ip_get_some e; rewrite /= mn mx expn0 muln1 => hx.
  have [j' e' hj] := ip_valid_range wf va (ip_get_some e).
  by move: hj; rewrite mn mx expn0 muln1; move: e'; rewrite e => -[<-]; slia.
have N0 : 0 < 2 ^ k.+1 by rewrite expn_gt0.
have M0 : 0 < 2 ^ k by rewrite expn_gt0.
have asz : ip_size perm = 2 ^ k.+1 by rewrite /ip_size mn mx -addnBA // addKn subn1 addn1 prednK.
case: fuel hf => // fuel hf.
have [pq [einv wq q1 q2 q3]] := ip_inverse_ok wf va.
move: (hinv); rewrite einv => -[epq]; subst pq.
pose pi x := odflt 0 (ip_get perm x); pose pii x := odflt 0 (ip_get pinv x).
have inbE x : inb k q x = (ip_min perm <= x <= ip_max perm) by rewrite inb_range mn mx.
have piP x : inb k q x -> [/\ ip_get perm x = Some (pi x), inb k q (pi x) & pii (pi x) = x].
  move=> hx; have [|j [hj e1 e2]] := q3 x; first by rewrite -inbE.
  by rewrite /pi e1 /= inbE hj /pii e2.
have piiP x : inb k q x -> [/\ ip_get pinv x = Some (pii x), inb k q (pii x) & pi (pii x) = x].
  rewrite inbE => hx; have [i e] := ip_valid_surj wf va hx.
  have [j [hj e1 e2]] := q3 _ (ip_get_some e); move: e1; rewrite e => -[ej]; subst j.
  by rewrite /pii e2 /= inbE (ip_get_some e) /pi e.
set o := (q * 2 ^ k.+1)%N in mn mx *; set N := 2 ^ k.+1 in N0 asz mx *.
have e1 : (dim - k.+1).+1 = (dim - k)%N by slia.
have e2 : (dim + k.+1 - 1)%N = (dim + k)%N by slia.
have nstop : (dim - k.+1 == dim + k.+1) = false by slia.
have wr : ip_wf (ip_range o (o + N - 1)) by apply: ip_range_wf; move: N0; move: (o) (N) => ? ?; slia.
pose st0 := BenesState R (nseq N false) o o (ip_range o (o + N - 1)) (ip_range o (o + N - 1)).
have nr u : routed k q (nseq N false) u = false by rewrite /routed nth_nseq; case: ifP.
have oin : inb k q o by rewrite inb_range -/o -/N; move: N0; move: (o) (N) => ? ?; slia.
have iv : inv dim k q R pi pii st0 (fun=> true) o.
  split=> //=.
  - by split=> //=; rewrite ?size_nseq // => u _; rewrite nr.
  - by rewrite nr.
  - by split; [rewrite leqnn leq_addr | move=> u; rewrite inb_range => /andP[h _]; rewrite ltnNge h].
  - by left; rewrite nr.
  - by move=> u _; rewrite nr.
have [|st' [eloop [c [gsh gfr gsz [np1 np2 np3] [ni1 ni2 ni3] grt gpt gsib] allr]]] := loop_ok hd hq piP piiP (fuel := N) iv.
  by rewrite /= count_nseq mul0n add0n mul2n -addnn leq_addr.
rewrite -/o -/N in eloop.
have {}grt u : inb k q u -> _ := fun h => grt u h (allr u h).
have {}gpt u : inb k q u -> c (pt k pi pii u) = ~~ c u := fun h => (gpt u h (allr u h)).2.
have {}gsib u : inb k q u -> c (flip_bit k u) = ~~ c u := fun h => gsib u h (allr u h) (allr _ (inb_sib h)).
have onto y : inb k q y -> exists2 u, inb k q u & dst k u (c u) = y.
  move=> hy; have dy b : bit k y = ~~ b -> dst k y b = y.
    by case: b; rewrite /dst /clear_bit /set_bit => ->.
  case: (boolP (c y == ~~ bit k y)) => [/eqP e|ne].
    by exists y => //; rewrite dy // e negbK.
  exists (flip_bit k y); first exact: inb_sib.
  by rewrite gsib // dst_flip dy //; move: ne; case: (c y); case: (bit k y).
have uniq_u u u' : inb k q u -> inb k q u' -> dst k (pi u) (c u) = dst k (pi u') (c u') -> u = u'.
  move=> hu hu' /dst_inj [ec [e|e]]; first by rewrite (pi_inj piP hu' hu e).
  have : pi u' = pi (pt k pi pii u) by rewrite (pi_pt piP piiP).
  move/(pi_inj piP hu' (pt_inb piP piiP hu)) => e'.
  by move: ec; rewrite e' gpt //; case: (c u).
have half2 : N %/ 2 = 2 ^ k by rewrite /N expnS mulKn.
have N2 : N = (2 ^ k + 2 ^ k)%N by rewrite /N expnS mul2n addnn.
have eq2 x : (x %/ N == q) = (x %/ 2 ^ k == q.*2) || (x %/ 2 ^ k == q.*2.+1).
  rewrite /N expnSr divnMA divn2; move: (x %/ 2 ^ k) => d. exact: half_eq.
have oq : o = (q.*2 * 2 ^ k)%N by rewrite /o /N expnS mulnA muln2.
have oq' : (o + 2 ^ k)%N = (q.*2.+1 * 2 ^ k)%N by rewrite mulSn oq addnC.
(* a half of the sub-permutation *)
have sub (b : bool) (a := ((~~ b + q.*2) * 2 ^ k)%N) :
    exists s si, [/\ ip_slice (bs_perm st') a (a + 2 ^ k - 1) = Some s, ip_slice (bs_perm_inv st') a (a + 2 ^ k - 1) = Some si &
    [/\ ip_wf s, ip_min s = a, ip_max s = (a + 2 ^ k - 1)%N, ip_is_valid s & ip_inverse s = Some si /\
        forall u, inb k q u -> c u = b -> ip_get s (dst k u b) = Some (dst k (pi u) b)]].
  have r1 : o <= a by rewrite oq /a leq_mul2r leq_addl orbT.
  have r2 : a <= a + 2 ^ k - 1 by move: M0; move: (a) (2 ^ k) => ? ?; slia.
  have r3 : a + 2 ^ k - 1 <= o + N - 1.
    by rewrite N2 addnA /a mulnDl -oq; case: (b) => /=; rewrite ?mul1n ?mul0n; move: M0; move: (o) (2 ^ k) => ? ?; slia.
  have [|||s [es ws s1 s2 s3]] := @ip_slice_ok (bs_perm st') a (a + 2 ^ k - 1) np1; rewrite ?np2 ?np3 //.
  have [|||si [esi wsi si1 si2 si3]] := @ip_slice_ok (bs_perm_inv st') a (a + 2 ^ k - 1) ni1; rewrite ?ni2 ?ni3 //.
  have ina x : (a <= x <= a + 2 ^ k - 1) = (x %/ 2 ^ k == ~~ b + q.*2)%N by rewrite blk_range.
  have inD u : inb k q u -> a <= dst k u b <= a + 2 ^ k - 1.
    by rewrite ina /inb dst_half => /eqP->.
  have on y : a <= y <= a + 2 ^ k - 1 -> exists u, [/\ inb k q u, c u = b & dst k u b = y].
    rewrite ina => /eqP hy; have : inb k q y by rewrite /inb -/N eq2 hy; case: (b); rewrite eqxx ?orbT.
    move=> /onto [u hu e]; have cu : c u = b.
      have := dst_bit k u (c u); rewrite e /bit hy oddD odd_double addbF; by case: (c u); case: (b).
    by exists u; split=> //; rewrite -cu.
  have gs u : inb k q u -> c u = b -> ip_get s (dst k u b) = Some (dst k (pi u) b).
    by move=> hu cu; rewrite s3 ?inD //; have [_ h _ _] := grt u hu; rewrite -cu.
  have gsi u : inb k q u -> c u = b -> ip_get si (dst k (pi u) b) = Some (dst k u b).
    move=> hu cu; have [_ hpu _] := piP u hu; rewrite si3 ?inD //.
    by have [_ _ h _] := grt u hu; rewrite -cu.
  have vs : ip_is_valid s.
    apply: ip_valid_inj => // [i|i i' j].
      rewrite s1 s2 => /on [u [hu cu <-]]; rewrite gs //; eexists; first by reflexivity.
      by rewrite inD //; have [] := piP u hu.
    move=> e e'; have := ip_get_some e; have := ip_get_some e'; rewrite s1 s2 => /on [u' [hu' cu' eu']] /on [u [hu cu eu]].
    move: e e'; rewrite -eu -eu' !gs // => -[<-] [e]; congr (dst k _ b).
    by apply: uniq_u => //; rewrite cu cu'.
  exists s, si; split=> //; split=> //; split=> //.
  apply: ip_inverse_unique; rewrite ?s1 ?s2 // => i j e; have := ip_get_some e; rewrite s1 s2 => /on [u [hu cu eu]].
  by move: e; rewrite -eu gs // => -[<-]; rewrite gsi.
have [su [siu [eu1 eu2 [wu mnu mxu vu [iu gu]]]]] := sub true.
have [sl [sil [el1 el2 [wl mnl mxl vl [il gl]]]]] := sub false.
rewrite /= add0n -?oq in eu1 eu2 mnu mxu; rewrite /= add1n -?oq' in el1 el2 mnl mxl.
have hk : k <= dim by apply: ltnW.
have hqk : q.*2.+1 < 2 ^ (dim - k).
  have -> : (dim - k)%N = (dim - k.+1).+1 by rewrite e1.
  rewrite expnS mul2n -doubleS leq_double; exact: hq.
have [R1 [er1 sh1 fr1 wk1]] := IH fuel q.*2 (bs_routing st') su siu hk (ltnW hqk) hf gsh wu (etrans mnu oq) (etrans mxu (congr1 (fun z => z + 2 ^ k - 1)%N oq)) vu iu.
have [R2 [er2 sh2 fr2 wk2]] := IH fuel q.*2.+1 R1 sl sil hk hqk hf sh1 wl (etrans mnl oq') (etrans mxl (congr1 (fun z => z + 2 ^ k - 1)%N oq')) vl il.
have ex1 : (o + 2 ^ k + 2 ^ k - 1)%N = (o + N - 1)%N by rewrite N2 addnA.
rewrite ex1 in el1 el2.
exists R2; split=> //.
- rewrite /= asz va hinv !eqxx /= nstop -/st0 eloop /= half2 eu1 /= el1 /= eu2 /= el2 /= e1 e2.
  by rewrite oq er1 /= -oq oq' er2.
- move=> x y h; rewrite fr2 ?fr1 ?gfr //.
  + apply: contra h => /andP[h1 h2]; rewrite -[y %/ N == q]/(inb k q y) h2 andbT.
    by case/orP: h1 => /eqP->; slia.
  + by apply: contra h => /andP[h1 h2]; rewrite eq2 h2 andbT; slia.
  + by apply: contra h => /andP[h1 h2]; rewrite eq2 h2 orbT andbT; slia.
- move=> u j e; have hu : inb k q u by rewrite inbE (ip_get_some e).
  have [eu pu _] := piP u hu; move: e; rewrite eu => -[<-]; have [a1 _ _ a4] := grt u hu.
  have -> : (2 * k.+1 = (2 * k).+2)%N by slia.
  rewrite -[LHS]/(walk dim R2 (dim - k.+1).+1 (2 * k).+1 (bstep dim R2 (dim - k.+1) u)) walk_last e1.
  have fr x y : ~~ (dim - k <= x < dim + k) -> rg R2 x y = rg (bs_routing st') x y.
    by move=> h; rewrite fr2 ?fr1 // negb_and h.
  have -> : bstep dim R2 (dim - k.+1) u = dst k u (c u).
    rewrite /bstep fr ?a1 ?mask_start -?dst_cases //; apply/negP => /andP[]; slia.
  have -> : walk dim R2 (dim - k) (2 * k) (dst k u (c u)) = dst k (pi u) (c u).
    have hu' := eqP hu.
    case cu : (c u); last by apply: wk2; apply: gl.
    have [|||h _] := @walk_blk dim R2 R1 k q.*2 (dim - k) (2 * k) (dst k u true).
    - by move=> c' hc'; apply: (@mask_mid dim) => //; slia.
    - by move=> c' y _ hy; rewrite fr2 // hy; apply/negP => /andP[_ /eqP]; slia.
    - by rewrite dst_half -/N hu'.
    - by rewrite h; apply: wk1; apply: gu.
  have -> : (dim - k + 2 * k = dim + k)%N by slia.
  rewrite /bstep fr; last by apply/negP => /andP[]; slia.
  rewrite -e2 a4 e2 -[(dim + k)%N]e2 mask_stop; exact: dst_back.
Qed.

Lemma walk_add dim R c n m x : walk dim R c (n + m) x = walk dim R (c + n) m (walk dim R c n x).
Proof. by elim: n c x => [|n IH] c x /=; rewrite ?addn0 // IH addSnnS. Qed.

Lemma blk0 h x : (x < 2 ^ h) = (x %/ 2 ^ h == 0).
Proof. by rewrite -leqn0 -[_ %/ _ <= 0]/(_ < 1) ltn_divLR ?expn_gt0 // mul1n. Qed.
Lemma mask_lt dim c : c < 2 * dim -> benes_mask_bit dim c < dim.
Proof. by move=> h; rewrite /benes_mask_bit; case: (ltnP c dim); slia. Qed.
Lemma bstep_lt dim R c x : c < 2 * dim -> x < 2 ^ dim -> bstep dim R c x < 2 ^ dim.
Proof.
by move=> hc; rewrite /bstep !blk0; case: ifP => // _; rewrite flip_blk // mask_lt.
Qed.
Lemma walk_lt dim R c n x : c + n <= 2 * dim -> x < 2 ^ dim -> walk dim R c n x < 2 ^ dim.
Proof.
elim: n c x => //= n IH c x hc hx; apply: IH; first by rewrite addSnnS.
by apply: bstep_lt => //; slia.
Qed.

Definition cols_inj dim R := forall c y y', c < 2 * dim -> y < 2 ^ dim -> y' < 2 ^ dim -> bstep dim R c y = bstep dim R c y' -> y = y'.

Lemma inj_surj_iota n (f : nat -> nat) : (forall x, x < n -> f x < n) ->
  (forall x x', x < n -> x' < n -> f x = f x' -> x = x') -> forall y, y < n -> exists2 x, x < n & f x = y.
Proof.
move=> hf hi y hy.
have u : uniq [seq f x | x <- iota 0 n].
  rewrite map_inj_in_uniq ?iota_uniq // => x x'; rewrite !mem_iota !add0n /= => h h'; exact: hi.
have [||_ h] := @uniq_min_size _ [seq f x | x <- iota 0 n] (iota 0 n) u.
- by move=> z /mapP [x]; rewrite !mem_iota !add0n => h ->; apply: hf.
- by rewrite size_map size_iota.
have : y \in iota 0 n by rewrite mem_iota.
by rewrite -h => /mapP [x]; rewrite mem_iota => hx ->; exists x.
Qed.

Lemma walk_cols_inj dim R : (forall x x', x < 2 ^ dim -> x' < 2 ^ dim ->
  walk dim R 0 (2 * dim) x = walk dim R 0 (2 * dim) x' -> x = x') -> cols_inj dim R.
Proof.
move=> hi c y y' hc hy hy' e.
have [x hx ex] : exists2 x, x < 2 ^ dim & walk dim R 0 c x = y.
  apply: (@inj_surj_iota (2 ^ dim) (walk dim R 0 c)) => // [x hx|x x' hx hx' exx].
    by apply: walk_lt => //; slia.
  apply: hi => //; have -> : (2 * dim = c + (2 * dim - c))%N by slia.
  by rewrite !walk_add exx.
have [x' hx' ex'] : exists2 x, x < 2 ^ dim & walk dim R 0 c x = y'.
  apply: (@inj_surj_iota (2 ^ dim) (walk dim R 0 c)) => // [z hz|z z' hz hz' exx].
    by apply: walk_lt => //; slia.
  apply: hi => //; have -> : (2 * dim = c + (2 * dim - c))%N by slia.
  by rewrite !walk_add exx.
suff exx : x = x' by rewrite -ex -ex' exx.
apply: hi => //; have -> : (2 * dim = c + 1 + (2 * dim - c.+1))%N by slia.
by rewrite !(walk_add _ _ _ (c + 1)) !(walk_add _ _ _ c 1) /= ex ex' add0n e.
Qed.

Lemma scatter (T : Type) (d : T) n dest (f : nat -> T) body l acc :
  (forall nxt p, size nxt = n -> p \in l -> body nxt p = vset nxt (dest p) (f p)) ->
  (forall p, p \in l -> dest p < n) -> {in l &, injective dest} -> uniq l -> size acc = n ->
  exists nxt, [/\ ofold body acc l = Some nxt, size nxt = n, (forall p, p \in l -> nth d nxt (dest p) = f p)
    & forall y, (forall p, p \in l -> dest p <> y) -> nth d nxt y = nth d acc y].
Proof.
elim: l acc => [|p l IH] acc hb hd hi /=; first by exists acc.
move=> /andP[np u] sz.
rewrite hb ?mem_head //.
have [|s' [-> s1 s2]] := @vset_ok _ d acc (dest p) (f p); first by rewrite sz hd ?mem_head.
have [|||||nxt [e1 e2 e3 e4]] := IH s'.
- by move=> nxt p' h1 h2; apply: hb => //; rewrite inE h2 orbT.
- by move=> p' h; apply: hd; rewrite inE h orbT.
- by move=> a b ha hb'; apply: hi; rewrite inE ?ha ?hb' orbT.
- by [].
- by rewrite s1.
exists nxt; split=> //.
  move=> p'; rewrite inE => /orP[/eqP->|h]; last exact: e3.
  rewrite e4 ?s2 ?eqxx // => p'' h e.
  have hin : p'' \in p :: l by rewrite inE h orbT.
  by move: np; rewrite -(hi _ _ hin (mem_head _ _) e) h.
move=> y hy; rewrite e4 ?s2; last by move=> q hq; apply: hy; rewrite inE hq orbT.
by case: eqP => // e; have := hy p (mem_head _ _); rewrite e.
Qed.

Lemma dim_of_pow k : benes_dimension (2 ^ k) = Some k.
Proof. by rewrite /benes_dimension up_expnK // eqxx. Qed.

Lemma route_by_benes_ok (T : Type) (d : T) k R (start : seq T) :
  shape (2 * k) (2 ^ k) R -> cols_inj k R -> size start = 2 ^ k ->
  exists res, [/\ route_by_benes d R start = Some res, size res = (2 * k).+1,
    (forall c, c <= 2 * k -> size (nth [::] res c) = 2 ^ k) &
    forall c x, c <= 2 * k -> x < 2 ^ k -> nth d (nth [::] res c) (walk k R 0 c x) = nth d start x].
Proof.
move=> [sR sc] ci sst; rewrite /route_by_benes sst dim_of_pow /=.
match goal with |- context [ofold ?g (start :: _) _] => set f := g end.
pose I c res := [/\ size res = (2 * k).+1, (forall c', c' <= 2 * k -> size (nth [::] res c') = 2 ^ k) &
  forall c' x, c' <= c -> x < 2 ^ k -> nth d (nth [::] res c') (walk k R 0 c' x) = nth d start x].
suff H m c res : (c + m = 2 * k)%N -> I c res -> exists res', ofold f res (iota c m) = Some res' /\ I (2 * k)%N res'.
  have [||res [-> [h1 h2 h3]]] := H (2 * k)%N 0%N (start :: nseq (2 * k) (nseq (2 ^ k) d)).
  - by [].
  - split=> [|[|c'] hc|[|c'] x //] //=; first by rewrite size_nseq.
    by rewrite nth_nseq hc size_nseq.
  by exists res.
elim: m c res => [|m IH] c res ec iv; first by exists res; split=> //; rewrite -ec addn0.
have hc : c < 2 * k by slia.
have [i1 i2 i3] := iv.
suff [res' [ef iv']] : exists res', f res c = Some res' /\ I c.+1 res'.
  have [|r [er ir]] := IH c.+1 res' _ iv'; first by rewrite addSnnS.
  by exists r; split=> //; rewrite -er /= ef.
rewrite /f (vget_nth [::]) ?i1 ?ltnS ?(ltnW hc) // /= (vget_nth [::]) ?sR //=.
have [|||||nxt [-> n1 n2 _]] := @scatter T d (2 ^ k) (bstep k R c) (nth d (nth [::] res c)) (fun nxt packet_idx =>
   obnd (vget (nth [::] R c) packet_idx) (fun b => obnd (vget (nth [::] res c) packet_idx) (fun x =>
   vset nxt (if ~~ b then packet_idx else flip_bit (benes_mask_bit k c) packet_idx) x))) (iota 0 (2 ^ k)) (nseq (2 ^ k) d).
- move=> nxt p sn; rewrite mem_iota add0n => hp.
  rewrite (vget_nth false) ?sc //= (vget_nth d) ?i2 // ?(ltnW hc) //= /bstep -/(rg R c p).
  by case: (rg R c p).
- by move=> p; rewrite mem_iota add0n => hp; apply: bstep_lt.
- by move=> x x'; rewrite !mem_iota !add0n => hx hx'; apply: ci.
- exact: iota_uniq.
- by rewrite size_nseq.
rewrite /=; have [|res' [-> s1 s2]] := @vset_ok _ [::] res c.+1 nxt; first by rewrite i1.
exists res'; split=> //; split; first by rewrite s1.
  by move=> c' hc'; rewrite s2; case: eqP => // _; rewrite i2.
move=> c' x hc' hx; rewrite s2; case: eqP => [->|ne]; last by rewrite i3 //; slia.
rewrite walk_last add0n n2 ?i3 // mem_iota add0n /=; apply: walk_lt => //; slia.
Qed.

Lemma ofold_all (A : eqType) (f : bool -> A -> option bool) (P : pred A) l b :
  (forall acc x, x \in l -> f acc x = Some (acc && P x)) -> ofold f b l = Some (b && all P l).
Proof.
elim: l b => [|x l IH] b h /=; first by rewrite andbT.
rewrite h ?mem_head //= IH ?andbA // => acc y hy; apply: h; by rewrite inE hy orbT.
Qed.

(** the whole algorithm *)
Lemma get_benes_ok k p : ip_wf p -> ip_min p = 0 -> ip_max p = (2 ^ k - 1)%N -> ip_is_valid p ->
  exists R, [/\ get_benes_routing p = Some R, shape (2 * k) (2 ^ k) R, cols_inj k R &
    forall i j, ip_get p i = Some j -> walk k R 0 (2 * k) i = j].
Proof.
move=> wf mn mx va; have M0 : 0 < 2 ^ k by rewrite expn_gt0.
have asz : ip_size p = 2 ^ k by rewrite /ip_size mn mx subn0 subn1 addn1 prednK.
rewrite /get_benes_routing asz dim_of_pow; cbv beta iota delta [obnd].
have [pinv [inv _ _ _ _]] := ip_inverse_ok wf va; rewrite inv.
have sh : shape (2 * k) (2 ^ k) (nseq (2 * k) (nseq (2 ^ k) false)).
  by split=> [|c hc]; rewrite ?nth_nseq ?size_nseq // hc size_nseq.
have hq : 0 < 2 ^ (k - k) by rewrite subnn.
have [||R [e sR _ wk]] := inner_ok (leqnn k) hq (leqnSn k) sh wf _ _ va inv; rewrite ?mul0n ?add0n //.
move: e wk; rewrite subnn mul0n addnn -mul2n => -> wk.
exists R; split=> //; apply: walk_cols_inj => x x' hx hx'.
have [|j ej _] := ip_valid_range wf va (i := x); first by rewrite mn mx; move: M0 hx; move: (2 ^ k) => ?; slia.
have [|j' ej' _] := ip_valid_range wf va (i := x'); first by rewrite mn mx; move: M0 hx'; move: (2 ^ k) => ?; slia.
rewrite (wk _ _ ej) (wk _ _ ej') => ejj; apply: (ip_valid_injective wf va ej); by rewrite ejj.
Qed.

(** [valid_benes_routing] on a routing without collisions says whether every packet is delivered *)
Lemma valid_benes_ok k p R : ip_wf p -> ip_min p = 0 -> ip_max p = (2 ^ k - 1)%N -> ip_is_valid p ->
  shape (2 * k) (2 ^ k) R -> cols_inj k R ->
  exists b, valid_benes_routing p R = Some b /\ (b <-> forall i j, ip_get p i = Some j -> walk k R 0 (2 * k) i = j).
Proof.
move=> wf mn mx va sh ci; have M0 : 0 < 2 ^ k by rewrite expn_gt0.
have asz : ip_size p = 2 ^ k by rewrite /ip_size mn mx subn0 subn1 addn1 prednK.
rewrite /valid_benes_routing /benes_num_columns asz dim_of_pow; cbv beta iota delta [omap obind oapp obnd].
have [|res [-> r1 r2 r3]] := @route_by_benes_ok nat 0 k R (iota 0 (2 ^ k)) sh ci; first by rewrite size_iota.
rewrite (vget_nth [::]) ?r1 //; set fin := nth [::] res (2 * k).
have inr i : i < 2 ^ k -> ip_min p <= i <= ip_max p by rewrite mn mx; move: M0; move: (2 ^ k) => ?; slia.
have inr' i : ip_min p <= i <= ip_max p -> i < 2 ^ k by rewrite mn mx; move: M0; move: (2 ^ k) => ?; slia.
pose P i := nth 0 fin (odflt 0 (ip_get p i)) == i.
rewrite (@ofold_all _ _ P) => [|acc x]; last first.
  rewrite mem_iota add0n => hx; have [|j ej hj] := ip_valid_range wf va (i := x); first exact: inr.
  by rewrite ej (vget_nth 0) ?r2 ?inr' // (vget_nth 0) ?size_iota // nth_iota // add0n /P ej.
eexists; split; first by reflexivity.
rewrite andTb; split.
  move=> /allP h i j e; have hi := inr' _ (ip_get_some e).
  have := h i; rewrite mem_iota add0n hi /P e /= => /(_ isT) /eqP ef.
  have hj : j < 2 ^ k by have [j'] := ip_valid_range wf va (ip_get_some e); rewrite e => -[->] /inr'.
  have [x hx ex] : exists2 x, x < 2 ^ k & walk k R 0 (2 * k) x = j.
    apply: (@inj_surj_iota (2 ^ k) (walk k R 0 (2 * k))) => // [z hz|z z' hz hz' ezz]; first exact: walk_lt.
    by have := r3 (2 * k)%N z (leqnn _) hz; rewrite ezz r3 // !nth_iota // !add0n => ->.
  have := r3 (2 * k)%N x (leqnn _) hx; rewrite ex -/fin ef nth_iota // add0n => ->; exact: ex.
move=> h; apply/allP => i; rewrite mem_iota add0n => hi; rewrite /P.
have [|j ej hj] := ip_valid_range wf va (i := i); first exact: inr.
by rewrite ej /= -(h _ _ ej) r3 // nth_iota // add0n.
Qed.

(** switches on which both packets agree never collide *)
Lemma consistent_cols_inj k R :
  (forall c x, c < 2 * k -> x < 2 ^ k -> rg R c x = rg R c (flip_bit (benes_mask_bit k c) x)) -> cols_inj k R.
Proof.
move=> h c y y' hc hy hy'; rewrite /bstep.
case e: (rg R c y); case e': (rg R c y') => // eq.
- by rewrite -[y](flip_flip (benes_mask_bit k c)) eq flip_flip.
- by move: e'; rewrite -eq -h // e.
- by move: e; rewrite eq -h // e'.
Qed.
