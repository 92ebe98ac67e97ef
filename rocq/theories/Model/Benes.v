(** Model of snark/routing/benes.hpp. [size_t] is [nat]; masks are powers of two, so the bit operations are modelled for
    a single bit. Out-of-range accesses and violated assertions are [None]; the [while (true)] loop and the recursion
    carry a fuel argument and are [None] when it runs out. *)
From mathcomp Require Import all_ssreflect.
From Verif.Model Require Import Base IntegerPermutation.
Set Implicit Arguments.
Unset Strict Implicit.
Unset Printing Implicit Defensive.

(** Bit [k] of [x]; [x & ~(1 << k)], [x | (1 << k)], [x ^ (1 << k)] *)
Definition bit (k x : nat) : bool := odd (x %/ 2 ^ k).
Definition clear_bit (k x : nat) : nat := if bit k x then (x - 2 ^ k)%N else x.
Definition set_bit (k x : nat) : nat := if bit k x then x else (x + 2 ^ k)%N.
Definition flip_bit (k x : nat) : nat := if bit k x then (x - 2 ^ k)%N else (x + 2 ^ k)%N.

(** benes.hpp:124-127 [benes_cross_edge_mask]: the position of the only bit of the mask *)
Definition benes_mask_bit (dimension column_idx : nat) : nat :=
  if column_idx < dimension then (dimension - 1 - column_idx)%N else (column_idx - dimension)%N.

(** benes.hpp:144-148 *)
Definition benes_lhs_packet_destination (dimension column_idx row_idx : nat) (use_top : bool) : nat :=
  let k := benes_mask_bit dimension column_idx in if use_top then clear_bit k row_idx else set_bit k row_idx.

(** benes.hpp:164-167 *)
Definition benes_rhs_packet_source (dimension column_idx row_idx : nat) (use_top : bool) : nat :=
  benes_lhs_packet_destination dimension (column_idx - 1) row_idx use_top.

(** benes.hpp:174-177 *)
Definition benes_get_switch_setting_from_subnetwork (dimension column_idx row_idx : nat) (use_top : bool) : bool :=
  row_idx != benes_lhs_packet_destination dimension column_idx row_idx use_top.

(** benes.hpp:185-189 *)
Definition benes_packet_cross_destination (dimension column_idx row_idx : nat) : nat :=
  flip_bit (benes_mask_bit dimension column_idx) row_idx.

(** benes.hpp:197-200 *)
Definition benes_packet_cross_source (dimension column_idx packet_idx : nat) : nat :=
  benes_packet_cross_destination dimension (column_idx - 1) packet_idx.

(** benes.hpp:203-208 and 212: ceil(log2(num_packets)); [None] unless it is a power of two *)
Definition benes_dimension (num_packets : nat) : option nat :=
  let dimension := up_log 2 num_packets in if num_packets == 2 ^ dimension then Some dimension else None.
Definition benes_num_columns (num_packets : nat) : option nat := omap (fun d => 2 * d)%N (benes_dimension num_packets).

(** benes.hpp:60-80: for every column and packet the straight and the cross destination *)
Definition benes_topology := seq (seq (nat * nat)).
(** benes.hpp: for every column and packet, whether the switch is set to cross *)
Definition benes_routing := seq (seq bool).

(** benes.hpp:210-228 *)
Definition generate_benes_topology (num_packets : nat) : option benes_topology :=
  omap (fun dimension =>
    [seq [seq (p, benes_packet_cross_destination dimension c p) | p <- iota 0 num_packets] | c <- iota 0 (2 * dimension)%N])
  (benes_dimension num_packets).

(** [routing[c][r] = b] *)
Definition rset (routing : benes_routing) (c r : nat) (b : bool) : option benes_routing :=
  obnd (vget routing c) (fun col => obnd (vset col r b) (fun col' => vset routing c col')).

(** benes.hpp:256-262 the local variables of the loop *)
Record benes_state := BenesState {
  bs_routing : benes_routing; bs_lhs_routed : seq bool; bs_w : nat; bs_last_unrouted : nat;
  bs_perm : iperm; bs_perm_inv : iperm }.

(** benes.hpp:264-321 one iteration of the loop; the boolean is [true] at the [break] *)
Definition benes_step (dimension : nat) (permutation permutation_inv : iperm) (start stop offset sz : nat) (st : benes_state)
    : option (bool * benes_state) :=
  let w := bs_w st in
  obnd (ip_get permutation w) (fun wprime =>
  obnd (rset (bs_routing st) start w (benes_get_switch_setting_from_subnetwork dimension start w true)) (fun r1 =>
  obnd (ip_set (bs_perm st) (benes_lhs_packet_destination dimension start w true)
          (benes_rhs_packet_source dimension stop wprime true)) (fun np1 =>
  obnd (vset (bs_lhs_routed st) (w - offset) true) (fun lr1 =>
  obnd (rset r1 (stop - 1) (benes_rhs_packet_source dimension stop wprime true)
          (benes_get_switch_setting_from_subnetwork dimension (stop - 1) wprime true)) (fun r2 =>
  obnd (ip_set (bs_perm_inv st) (benes_rhs_packet_source dimension stop wprime true)
          (benes_lhs_packet_destination dimension start w true)) (fun npi1 =>
  let vprime := benes_packet_cross_source dimension stop wprime in
  obnd (ip_get permutation_inv vprime) (fun v =>
  obnd (vget lr1 (v - offset)) (fun routed_v =>
  if routed_v then None else
  obnd (rset r2 (stop - 1) (benes_rhs_packet_source dimension stop vprime false)
          (benes_get_switch_setting_from_subnetwork dimension (stop - 1) vprime false)) (fun r3 =>
  obnd (ip_set npi1 (benes_rhs_packet_source dimension stop vprime false)
          (benes_lhs_packet_destination dimension start v false)) (fun npi2 =>
  obnd (rset r3 start v (benes_get_switch_setting_from_subnetwork dimension start v false)) (fun r4 =>
  obnd (ip_set np1 (benes_lhs_packet_destination dimension start v false)
          (benes_rhs_packet_source dimension stop vprime false)) (fun np2 =>
  obnd (vset lr1 (v - offset) true) (fun lr2 =>
  let next := benes_packet_cross_destination dimension start v in
  obnd (vget lr2 (next - offset)) (fun routed_next =>
  if ~~ routed_next then Some (false, BenesState r4 lr2 next (bs_last_unrouted st) np2 npi2)
  else
    (* while ((last_unrouted < offset + size) && lhs_routed[last_unrouted - offset]) ++last_unrouted; *)
    let last := (bs_last_unrouted st + find negb (drop (bs_last_unrouted st - offset) lr2))%N in
    if last == (offset + sz)%N then Some (true, BenesState r4 lr2 w last np2 npi2)
    else Some (false, BenesState r4 lr2 last last np2 npi2))))))))))))))).

Fixpoint benes_loop (fuel dimension : nat) (permutation permutation_inv : iperm) (start stop offset sz : nat)
    (st : benes_state) : option benes_state :=
  if fuel is fuel'.+1 then
    obnd (benes_step dimension permutation permutation_inv start stop offset sz st) (fun r =>
    if r.1 then Some r.2 else benes_loop fuel' dimension permutation permutation_inv start stop offset sz r.2)
  else None.

(** benes.hpp:240-342 [route_benes_inner]. The assertions of 248-250 are checked ([inversed], which does not exist in
    integer_permutation.hpp, is read as [inverse]). *)
Fixpoint route_benes_inner (fuel dimension : nat) (permutation permutation_inv : iperm)
    (start stop offset sz : nat) (routing : benes_routing) : option benes_routing :=
  if ~~ ((ip_size permutation == sz) && ip_is_valid permutation && (ip_inverse permutation == Some permutation_inv)) then None
  else if start == stop then Some routing
  else if fuel is fuel'.+1 then
    obnd (benes_loop sz dimension permutation permutation_inv start stop offset sz
            (BenesState routing (nseq sz false) offset offset (ip_range offset (offset + sz - 1)) (ip_range offset (offset + sz - 1))))
      (fun st =>
    obnd (ip_slice (bs_perm st) offset (offset + sz %/ 2 - 1)) (fun upper =>
    obnd (ip_slice (bs_perm st) (offset + sz %/ 2) (offset + sz - 1)) (fun lower =>
    obnd (ip_slice (bs_perm_inv st) offset (offset + sz %/ 2 - 1)) (fun upper_inv =>
    obnd (ip_slice (bs_perm_inv st) (offset + sz %/ 2) (offset + sz - 1)) (fun lower_inv =>
    obnd (route_benes_inner fuel' dimension upper upper_inv start.+1 (stop - 1) offset (sz %/ 2) (bs_routing st)) (fun routing1 =>
    route_benes_inner fuel' dimension lower lower_inv start.+1 (stop - 1) (offset + sz %/ 2) (sz %/ 2) routing1))))))
  else None.

(** benes.hpp:344-356 [get_benes_routing] *)
Definition get_benes_routing (permutation : iperm) : option benes_routing :=
  let num_packets := ip_size permutation in
  obnd (benes_dimension num_packets) (fun dimension =>
  let num_columns := (2 * dimension)%N in
  obnd (ip_inverse permutation) (fun inv =>
  route_benes_inner dimension.+1 dimension permutation inv 0 num_columns 0 num_packets
    (nseq num_columns (nseq num_packets false)))).

(** benes.hpp:358-378 [route_by_benes]; [d] is the value-initialised T *)
Definition route_by_benes (T : Type) (d : T) (routing : benes_routing) (start : seq T) : option (seq (seq T)) :=
  let num_packets := size start in
  obnd (benes_dimension num_packets) (fun dimension =>
  ofold (fun res column_idx =>
    obnd (vget res column_idx) (fun cur =>
    obnd (vget routing column_idx) (fun sw =>
    obnd (ofold (fun nxt packet_idx =>
      obnd (vget sw packet_idx) (fun b =>
      obnd (vget cur packet_idx) (fun x =>
      vset nxt (if ~~ b then packet_idx else flip_bit (benes_mask_bit dimension column_idx) packet_idx) x)))
     (nseq num_packets d) (iota 0 num_packets)) (fun nxt =>
    vset res column_idx.+1 nxt))))
   (start :: nseq (2 * dimension)%N (nseq num_packets d)) (iota 0 (2 * dimension)%N)).

(** benes.hpp:380-398 [valid_benes_routing] *)
Definition valid_benes_routing (permutation : iperm) (routing : benes_routing) : option bool :=
  let num_packets := ip_size permutation in
  obnd (benes_num_columns num_packets) (fun num_columns =>
  let input_packets := iota 0 num_packets in
  obnd (route_by_benes 0 routing input_packets) (fun routed =>
  obnd (vget routed num_columns) (fun final =>
  ofold (fun ok packet_idx =>
    obnd (ip_get permutation packet_idx) (fun t =>
    obnd (vget final t) (fun x =>
    obnd (vget input_packets packet_idx) (fun y => Some (ok && (x == y))))))
   true (iota 0 num_packets)))).
