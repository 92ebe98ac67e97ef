(** C12: the Benes routing algorithm realises every permutation of a power of two of packets. *)
From mathcomp Require Import all_ssreflect.
From Verif.Model Require Import Base IntegerPermutation Benes.
From Verif.Proofs Require Import NatTac PermProofs BenesProofs.
Set Implicit Arguments.
Unset Strict Implicit.
Unset Printing Implicit Defensive.

(** ** Specification: follow the packet through the topology, column by column. In each column the packet takes the
    straight ([.1]) or the cross ([.2]) edge leaving its row, according to its switch. *)
Definition follow (topology : benes_topology) (routing : benes_routing) (row : nat) : nat :=
  foldl (fun row col => let edges := nth (0, 0) col.1 row in if nth false col.2 row then edges.2 else edges.1)
        row (zip topology routing).

(** [p] is a permutation of [0 .. 2^k - 1] *)
Definition is_perm_pow2 (k : nat) (p : iperm) :=
  [/\ ip_wf p, ip_min p = 0, ip_max p = (2 ^ k - 1)%N & ip_is_valid p].

Lemma follow_walk k topo R i : generate_benes_topology (2 ^ k) = Some topo -> shape (2 * k) (2 ^ k) R -> i < 2 ^ k ->
  follow topo R i = walk k R 0 (2 * k) i.
Proof.
rewrite /generate_benes_topology dim_of_pow /= => -[<-] [sR sc] hi; rewrite /follow.
suff H n c x (RR : benes_routing) : (c + n = 2 * k)%N -> size RR = n -> (forall j, j < n -> nth [::] RR j = nth [::] R (c + j)) -> x < 2 ^ k ->
   foldl (fun row col => let edges := nth (0, 0) col.1 row in if nth false col.2 row then edges.2 else edges.1)
     x (zip [seq [seq (p, benes_packet_cross_destination k c p) | p <- iota 0 (2 ^ k)] | c <- iota c n] RR) = walk k R c n x.
  by apply: H.
elim: n c x RR => [|n IH] c x [|col RR] //= ec [sz] hR hx.
rewrite (nth_map 0) ?size_iota // nth_iota // add0n /=.
have -> : (if nth false col x then benes_packet_cross_destination k c x else x) = bstep k R c x.
  by have := hR 0 isT; rewrite addn0 /= => ->.
apply: IH => //; first by rewrite addSnnS.
  by move=> j hj; have := hR j.+1 hj; rewrite /= addSnnS.
by apply: bstep_lt => //; slia.
Qed.

(** The topology has [2 k] columns of [2^k] switches; every edge stays among the [2^k] rows. *)
Theorem C12_topology k : exists topo, [/\ generate_benes_topology (2 ^ k) = Some topo, benes_num_columns (2 ^ k) = Some (2 * k)%N,
  size topo = (2 * k)%N & forall c x, c < 2 * k -> x < 2 ^ k ->
   exists e, [/\ vget (nth [::] topo c) x = Some (x, e), e < 2 ^ k, e != x & vget (nth [::] topo c) e = Some (e, x)]].
Proof.
rewrite /generate_benes_topology /benes_num_columns dim_of_pow; eexists; split; [reflexivity | by [] | by rewrite size_map size_iota |].
move=> c x hc hx; rewrite (nth_map 0) ?size_iota // nth_iota // add0n.
have lt : flip_bit (benes_mask_bit k c) x < 2 ^ k by move: hx; rewrite !blk0 flip_blk // mask_lt.
exists (flip_bit (benes_mask_bit k c) x); split=> //.
- by rewrite (vget_nth (0, 0)) ?size_map ?size_iota // (nth_map 0) ?size_iota // nth_iota.
- exact: flip_neq.
- rewrite (vget_nth (0, 0)) ?size_map ?size_iota // (nth_map 0) ?size_iota // nth_iota // add0n.
  by rewrite /benes_packet_cross_destination flip_flip.
Qed.

(** Every permutation gets a routing with one setting per switch; following it delivers packet [i] to [p(i)]. *)
Theorem C12_routes k p topo : is_perm_pow2 k p -> generate_benes_topology (2 ^ k) = Some topo ->
  exists R, [/\ get_benes_routing p = Some R, size R = (2 * k)%N, (forall c, c < 2 * k -> size (nth [::] R c) = 2 ^ k) &
    forall i j, ip_get p i = Some j -> follow topo R i = j].
Proof.
move=> [wf mn mx va] et; have [R [e [s1 s2] _ w]] := get_benes_ok wf mn mx va.
exists R; split=> // i j ej; rewrite (follow_walk et) ?(w _ _ ej) //.
have := ip_get_some ej; rewrite mn mx; have : 0 < 2 ^ k by rewrite expn_gt0.
by move: (2 ^ k) => ?; slia.
Qed.

(** [valid_benes_routing] accepts it. *)
Theorem C12_validates k p : is_perm_pow2 k p ->
  exists2 R, get_benes_routing p = Some R & valid_benes_routing p R = Some true.
Proof.
move=> [wf mn mx va]; have [R [e sh ci w]] := get_benes_ok wf mn mx va; exists R => //.
by have [b [-> hb]] := valid_benes_ok wf mn mx va sh ci; case: b hb => // hb; have := hb.2 w.
Qed.

(** [route_by_benes] permutes any data accordingly: item [i] ends up at position [p(i)] of the last column. *)
Theorem C12_route_by_benes k p (T : Type) (d : T) (start : seq T) : is_perm_pow2 k p -> size start = 2 ^ k ->
  exists R res, [/\ get_benes_routing p = Some R, route_by_benes d R start = Some res, size res = (2 * k).+1 &
    forall i j, ip_get p i = Some j -> vget (nth [::] res (2 * k)) j = vget start i].
Proof.
move=> [wf mn mx va] ss; have [R [e sh ci w]] := get_benes_ok wf mn mx va.
have [res [er s1 s2 s3]] := route_by_benes_ok d sh ci ss.
exists R, res; split=> // i j ej.
have M0 : 0 < 2 ^ k by rewrite expn_gt0.
have hi : i < 2 ^ k by have := ip_get_some ej; rewrite mn mx; move: M0; move: (2 ^ k) => ?; slia.
rewrite -(w _ _ ej) [RHS](vget_nth d) ?ss // (vget_nth d); first by rewrite s3.
by rewrite s2 // walk_lt.
Qed.

(** [valid_benes_routing] is exact on every routing (not only computed ones) whose two packets agree on each switch. *)
Theorem C12_validate_exact k p topo R : is_perm_pow2 k p -> generate_benes_topology (2 ^ k) = Some topo ->
  size R = (2 * k)%N -> (forall c, c < 2 * k -> size (nth [::] R c) = 2 ^ k) ->
  (forall c x e, c < 2 * k -> x < 2 ^ k -> vget (nth [::] topo c) x = Some (x, e) ->
     nth false (nth [::] R c) x = nth false (nth [::] R c) e) ->
  exists b, valid_benes_routing p R = Some b /\ (b <-> forall i j, ip_get p i = Some j -> follow topo R i = j).
Proof.
move=> [wf mn mx va] et s1 s2 hc.
have sh : shape (2 * k) (2 ^ k) R by [].
have ci : cols_inj k R.
  apply: consistent_cols_inj => c x h1 h2; apply: hc => //.
  move: et; rewrite /generate_benes_topology dim_of_pow => -[<-].
  by rewrite (nth_map 0) ?size_iota // nth_iota // add0n (vget_nth (0, 0)) ?size_map ?size_iota // (nth_map 0) ?size_iota // nth_iota.
have [b [e hb]] := valid_benes_ok wf mn mx va sh ci; exists b; split=> //; rewrite hb.
have M0 : 0 < 2 ^ k by rewrite expn_gt0.
have hi i j : ip_get p i = Some j -> i < 2 ^ k by move=> /ip_get_some; rewrite mn mx; move: M0; move: (2 ^ k) => ?; slia.
by split=> h i j ej; have := h _ _ ej; rewrite (follow_walk et sh (hi _ _ ej)).
Qed.

(** Finding: without that agreement it is not. Two packets sent to the same row overwrite each other and the gap is
    filled by the value-initialised 0, which is the name of packet 0: here packet 0 is sent to row 1, and the routing is
    accepted as a routing of the identity. *)
Theorem C12_validate_collision_refuted : exists p topo R, [/\ is_perm_pow2 1 p, generate_benes_topology 2 = Some topo,
  size R = 2 /\ (forall c, c < 2 -> size (nth [::] R c) = 2), valid_benes_routing p R = Some true &
  ip_get p 0 = Some 0 /\ follow topo R 0 = 1].
Proof.
exists (IPerm [:: 0; 1] 0 1), [:: [:: (0, 1); (1, 0)]; [:: (0, 1); (1, 0)]], [:: [:: true; false]; [:: false; false]].
by split; rewrite // /generate_benes_topology; split=> //; case=> [|[|c]].
Qed.

(** Non-vacuity: the reversal of 8 packets. *)
Definition C12_p := IPerm [:: 7; 6; 5; 4; 3; 2; 1; 0] 0 7.
Example C12_witness : is_perm_pow2 3 C12_p /\
  obnd (generate_benes_topology 8) (fun topo => omap (fun R => [seq follow topo R i | i <- iota 0 8]) (get_benes_routing C12_p))
   = Some [:: 7; 6; 5; 4; 3; 2; 1; 0] /\
  obnd (get_benes_routing C12_p) (valid_benes_routing C12_p) = Some true /\
  valid_benes_routing C12_p (nseq 6 (nseq 8 false)) = Some false.
Proof. by split; [split | split; [vm_compute | split; vm_compute]]. Qed.

Print Assumptions C12_topology.
Print Assumptions C12_routes.
Print Assumptions C12_validates.
Print Assumptions C12_route_by_benes.
Print Assumptions C12_validate_exact.
Print Assumptions C12_validate_collision_refuted.
