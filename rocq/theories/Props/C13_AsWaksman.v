(** C13: the AS-Waksman routing algorithm realises every permutation of any number (at least two) of packets. *)
From mathcomp Require Import all_ssreflect.
From Verif.Model Require Import Base OrderedMap IntegerPermutation AsWaksman.
From Verif.Proofs Require Import NatTac PermProofs WaksmanTopology WaksmanRecursion WaksmanWalk WaksmanValid.
Set Implicit Arguments.
Unset Strict Implicit.
Unset Printing Implicit Defensive.

(** ** Specification: follow a packet through the topology, column by column. A row with two equal edges is a plain wire.
    Otherwise the packet is at a switch joining its row to the row below or above; the setting of the switch is recorded
    under the upper of the two rows: that is the packet's own row if there is a setting for it, and the row above otherwise.
    Straight is the first edge, cross the second one. *)
Definition step (edges : seq (nat * nat)) (settings : omapT bool) (row : nat) : option nat :=
  let e := nth (0, 0) edges row in
  if e.1 == e.2 then Some e.1
  else omap (fun cross : bool => if cross then e.2 else e.1) (if om_get settings row is Some b then Some b else om_get settings row.-1).
Definition follow (topology : aw_topology) (routing : aw_routing) (row : nat) : option nat :=
  foldl (fun pos col => obind (step col.1 col.2) pos) (Some row) (zip topology routing).

(** [p] is a permutation of [0 .. n - 1] *)
Definition is_perm (n : nat) (p : iperm) := [/\ ip_wf p, ip_min p = 0, ip_max p = (n - 1)%N & ip_is_valid p].

(** the rows [r] and [r + 1] enter a switch: they have the same two destinations, exchanged *)
Definition switch_at (n : nat) (edges : seq (nat * nat)) (r : nat) : bool :=
  let e := nth (0, 0) edges r in (r.+1 < n) && (e.1 != e.2) && (nth (0, 0) edges r.+1 == (e.2, e.1)).

(** ** From the tables to the specification *)
Lemma step_wmv nb rt c p q : wmv (nbf nb) (rf rt) c p = Some q -> step (nth [::] nb c) (nth [::] rt c) p = Some q.
Proof.
rewrite /wmv /step -/(nbf nb c p); case: ifP => // _; case: ifP => // hx; rewrite -/(rf rt c p).
case e: (rf rt c p) hx => [b|] //= _; by case: p {e} => [|p] //=; rewrite -/(rf rt c p); case: (rf rt c p).
Qed.
Lemma follow_walk w nb rt p q : size nb = w -> size rt = w -> WaksmanWalk.walk (nbf nb) (rf rt) w 0 p = Some q -> follow nb rt p = Some q.
Proof.
rewrite /follow.
suff H m c N R x : size N = m -> size R = m -> (forall j, j < m -> nth [::] nb (c + j) = nth [::] N j /\ nth [::] rt (c + j) = nth [::] R j) ->
    WaksmanWalk.walk (nbf nb) (rf rt) m c x = Some q -> foldl (fun pos col => obind (step col.1 col.2) pos) (Some x) (zip N R) = Some q.
  by move=> s1 s2; apply: H.
elim: m c N R x => [|m ih] c [|a N] [|b R] x //= [sN] [sR] h.
have [e1 e2] := h 0 isT; rewrite addn0 /= in e1 e2.
case e: (wmv _ _ c x) => [y|] //= ew; rewrite -e1 -e2 (step_wmv e).
by apply: (ih c.+1) => // j hj; have := h j.+1 hj; rewrite addSnnS.
Qed.

(** ** The generated topology *)
(** For every number of packets there is a topology with [2 ceil(log2 n) - 1] columns of [n] rows. Every edge leads to one of
    the [n] rows; every row is a plain wire or shares a switch with a neighbouring row; with all switches straight a
    column permutes the rows. *)
Theorem C13_topology n : 1 < n -> exists topo, [/\ generate_as_waksman_topology n = Some topo, size topo = (2 * up_log 2 n - 1)%N,
  forall c, c < size topo -> size (nth [::] topo c) = n,
  forall c r, c < size topo -> r < n -> exists e e' r', [/\ vget (nth [::] topo c) r = Some (e, e'), e < n, e' < n,
     vget (nth [::] topo c) r' = Some (e', e) & [\/ r' = r.+1, r = r'.+1 | r' = r /\ e = e']] &
  forall c r r' e e' f f', c < size topo -> vget (nth [::] topo c) r = Some (e, e') -> vget (nth [::] topo c) r' = Some (f, f') -> e = f -> r = r'].
Proof.
move=> hn; have [nb [e1 [s1 s2] ec ht]] := topology_ok hn.
have hw : aw_num_columns n = (2 * up_log 2 n - 1)%N by rewrite /aw_num_columns hn.
exists nb; rewrite e1 s1; split=> //.
- move=> c r hc hr.
  have [r' [h1 h2 h3 h4 h5]] : wired (nbf nb) 0 n c r (fun q => q < n).
    by apply: (topo_wired ht) => //; move: hc; rewrite ec; slia.
  exists (nbf nb c r).1, (nbf nb c r).2, r'; rewrite !(vget_nth (0, 0)) ?s2 // -/(nbf nb c r) -/(nbf nb c r') h2; split=> //.
    by case: (nbf nb c r).
  case/or3P: h3 => [/eqP h|/eqP h|/andP[/eqP h /eqP h']]; [by apply: Or31|by apply: Or32|by apply: Or33].
- move=> c r r' e e' f f' hc.
  case: (ltnP r n) => hr; last by rewrite vget_None // s2.
  case: (ltnP r' n) => hr'; last by rewrite [in X in _ -> X]vget_None // s2.
  rewrite !(vget_nth (0, 0)) ?s2 // => -[er] [er'] ef.
  have [|g [g1 g2 g3]] := topo_straight ht (c := c); first by move: hc; rewrite ec; slia.
  apply: g3 => //; have := g1 r hr; have := g1 r' hr'; rewrite /nbf er er' ef /=; by case: ifP => _ -> ->.
Qed.

(** ** The routing *)
(** Every permutation gets a routing with one map of settings per column; following it delivers packet [i] to [p(i)]. *)
Theorem C13_routes n p topo : 1 < n -> is_perm n p -> generate_as_waksman_topology n = Some topo ->
  exists R, [/\ get_as_waksman_routing p = Some R, size R = size topo & forall i j, ip_get p i = Some j -> follow topo R i = Some j].
Proof.
move=> hn [wf mn mx va] et; have [nb [e1 [s1 s2] ec ht]] := topology_ok hn; move: e1; rewrite et => -[e1]; rewrite -{nb}e1 in s1 s2 ht.
have [R [eR sR _ w]] := get_routing_ok hn wf mn mx va ht.
exists R; rewrite s1; split=> // i j ej; exact: (follow_walk s1 sR (w _ _ ej)).
Qed.

(** [valid_as_waksman_routing] accepts it. *)
Theorem C13_validates n p : 1 < n -> is_perm n p ->
  exists2 R, get_as_waksman_routing p = Some R & valid_as_waksman_routing p R = Some true.
Proof.
move=> hn [wf mn mx va]; have [nb [e1 sh ec ht]] := topology_ok hn.
have [R [eR sR mv w]] := get_routing_ok hn wf mn mx va ht; exists R => //.
by have [b [-> hb]] := valid_ok hn wf mn mx va e1 sh sR mv; case: b hb => // hb; have := hb.2 w.
Qed.

(** [valid_as_waksman_routing] is exact on every routing, computed or not, that has a setting for the upper row of each switch
    and no other settings. *)
Theorem C13_validate_exact n p topo R : 1 < n -> is_perm n p -> generate_as_waksman_topology n = Some topo -> size R = size topo ->
  (forall c r, c < size topo -> r < n -> (om_get (nth [::] R c) r != None) = switch_at n (nth [::] topo c) r) ->
  exists b, valid_as_waksman_routing p R = Some b /\ (b <-> forall i j, ip_get p i = Some j -> follow topo R i = Some j).
Proof.
move=> hn [wf mn mx va] et; have [nb [e1 sh ec ht]] := topology_ok hn; move: e1; rewrite et => -[e1]; rewrite -{nb}e1 in sh ht.
have [s1 s2] := sh; rewrite s1 => sR hR.
have mv : moves (nbf topo) (rf R) (aw_num_columns n) n.
  rewrite ec; apply: consistent_moves ht _ => c r hc hr.
  have := hR c r; rewrite ec addn1 ltnS => /(_ hc hr); rewrite -/(rf R c r) /switch_at /is_switch -/(nbf topo c r) -/(nbf topo c r.+1) -andbA => <-.
  by case: (rf R c r).
have [b [e hb]] := valid_ok hn wf mn mx va et sh sR mv; exists b; split=> //; rewrite hb.
have [g [g1 _ _]] := moves_walk mv (leqnn _).
split=> h i j ej; have := h _ _ ej; last first.
  have hi : i < n by have := ip_get_some ej; rewrite mn mx; slia.
  by rewrite (follow_walk s1 sR (g1 _ hi)) g1.
exact: follow_walk.
Qed.

(** ** Findings *)
(** A single packet: [get_as_waksman_routing] computes the number of columns, 0, minus 1; the unsigned number wraps around and the
    algorithm runs into out-of-range accesses. ([generate_as_waksman_topology] has an assertion against this case.) *)
Theorem C13_one_packet_refuted : exists p, is_perm 1 p /\ get_as_waksman_routing p = None.
Proof. by exists (IPerm [:: 0] 0 0). Qed.

(** A routing with settings in other rows can be accepted although it loses a packet: here rows 0 and 2 of the middle column have a
    setting, the two packets of the switch of rows 1 and 2 take different settings, and both end up in row 2. *)
Theorem C13_validate_collision_refuted : exists p topo R, [/\ is_perm 3 p, generate_as_waksman_topology 3 = Some topo, size R = size topo,
  valid_as_waksman_routing p R = Some true & ip_get p 1 = Some 1 /\ (follow topo R 1 = Some 2 /\ follow topo R 2 = Some 2)].
Proof.
exists (IPerm [:: 0; 1; 2] 0 2), [:: [:: (0, 1); (1, 0); (2, 2)]; [:: (0, 0); (1, 2); (2, 1)]; [:: (0, 1); (1, 0); (2, 2)]],
  [:: [:: (0, false)]; [:: (0, true); (2, false)]; [:: (0, false)]].
by split; vm_compute.
Qed.

(** ** Non-vacuity: a permutation of 7 packets *)
Definition C13_p := IPerm [:: 3; 6; 0; 5; 1; 4; 2] 0 6.
Example C13_witness : is_perm 7 C13_p /\
  obnd (generate_as_waksman_topology 7) (fun topo => omap (fun R => [seq follow topo R i | i <- iota 0 7]) (get_as_waksman_routing C13_p))
   = Some [seq Some j | j <- [:: 3; 6; 0; 5; 1; 4; 2]] /\
  obnd (get_as_waksman_routing C13_p) (valid_as_waksman_routing C13_p) = Some true.
Proof. by split; [split | split; vm_compute]. Qed.
(** a consistent routing that is rejected, as in [C13_validate_exact] *)
Example C13_exact_witness : let p := IPerm [:: 1; 0] 0 1 in is_perm 2 p /\ exists topo, [/\ generate_as_waksman_topology 2 = Some topo,
  (forall c r, c < size topo -> r < 2 -> (om_get (nth [::] [:: [:: (0, false)]] c) r != None) = switch_at 2 (nth [::] topo c) r),
  valid_as_waksman_routing p [:: [:: (0, false)]] = Some false & valid_as_waksman_routing p [:: [:: (0, true)]] = Some true].
Proof.
split; first by split.
exists [:: [:: (0, 1); (1, 0)]]; split; [by vm_compute| |by vm_compute|by vm_compute].
by case=> [|c] [|[|r]].
Qed.

Print Assumptions C13_topology.
Print Assumptions C13_routes.
Print Assumptions C13_validates.
Print Assumptions C13_validate_exact.
Print Assumptions C13_one_packet_refuted.
Print Assumptions C13_validate_collision_refuted.
