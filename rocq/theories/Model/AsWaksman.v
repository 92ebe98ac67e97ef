(** Model of snark/routing/as_waksman.hpp. [size_t] is [nat]; out-of-range accesses, violated assertions and subtractions that
    wrap around are [None]; the [while (true)] loop and the recursions carry a fuel argument and are [None] when it runs out.
    [ceil(log2(n))], computed by the code in floating point, is taken to be exact. (The functions declared [inline ... const] at
    namespace scope, 155-179, are read without the [const].) *)
From mathcomp Require Import all_ssreflect.
From Verif.Model Require Import Base OrderedMap IntegerPermutation.
Set Implicit Arguments.
Unset Strict Implicit.
Unset Printing Implicit Defensive.

(** as_waksman.hpp:97: for every column and packet the destinations when the switch is straight and when it is crossed *)
Definition aw_topology := seq (seq (nat * nat)).
(** as_waksman.hpp:116: for every column the settings of the switches, by canonical row *)
Definition aw_routing := seq (omapT bool).

(** as_waksman.hpp:152-154 [as_waksman_top_height] *)
Definition aw_top_height (num_packets : nat) : nat := num_packets %/ 2.

(** as_waksman.hpp:167-172 [as_waksman_switch_output] *)
Definition aw_switch_output (num_packets row_offset row_idx : nat) (use_top : bool) : option nat :=
  let relpos := (row_idx - row_offset)%N in
  oguard (relpos %% 2 == 0) && (relpos + 1 < num_packets);
  Some (row_offset + relpos %/ 2 + (if use_top then 0 else aw_top_height num_packets))%N.

(** as_waksman.hpp:180-184 [as_waksman_switch_input] *)
Definition aw_switch_input := aw_switch_output.

(** as_waksman.hpp:186-188 [as_waksman_num_columns] *)
Definition aw_num_columns (num_packets : nat) : nat := if num_packets > 1 then (2 * up_log 2 num_packets - 1)%N else 0.

(** [neighbors[c][r] = x] (both components) *)
Definition aw_nset (neighbors : aw_topology) (c r : nat) (x : nat * nat) : option aw_topology :=
  olet col <- vget neighbors c; olet col' <- vset col r x; vset neighbors c col'.

(** as_waksman.hpp:223-227, one packet *)
Definition aw_straight (left right lo : nat) (rhs_dests : seq nat) (neighbors : aw_topology) (packet_idx : nat) : option aw_topology :=
  olet nb1 <- aw_nset neighbors left packet_idx (packet_idx, packet_idx);
  olet dest <- vget rhs_dests (packet_idx - lo);
  aw_nset nb1 right packet_idx (dest, dest).

(** as_waksman.hpp:249-266, one switch; the state is ([neighbors], [new_rhs_dests]) *)
Definition aw_switches (left right lo subnetwork_size : nat) (rhs_dests : seq nat) (st : aw_topology * seq nat) (row_idx : nat)
    : option (aw_topology * seq nat) :=
  let '(nb, nd) := st in
  olet t <- aw_switch_output subnetwork_size lo row_idx true;
  olet b <- aw_switch_output subnetwork_size lo row_idx false;
  olet nb1 <- aw_nset nb left row_idx (t, b);
  olet nb2 <- aw_nset nb1 left row_idx.+1 (b, t);
  olet t' <- aw_switch_input subnetwork_size lo row_idx true;
  olet b' <- aw_switch_input subnetwork_size lo row_idx false;
  olet nd1 <- vset nd (t' - lo) row_idx;
  olet nd2 <- vset nd1 (b' - lo) row_idx.+1;
  olet d0 <- vget rhs_dests (row_idx - lo);
  olet d1 <- vget rhs_dests (row_idx + 1 - lo);
  olet nb3 <- aw_nset nb2 right row_idx (d0, d1);
  olet nb4 <- aw_nset nb3 right row_idx.+1 (d1, d0);
  Some (nb4, nd2).

(** as_waksman.hpp:268-286: the last wire for an odd size, the constant switch for an even one *)
Definition aw_last (left right lo hi subnetwork_size : nat) (rhs_dests : seq nat) (st : aw_topology * seq nat)
    : option (aw_topology * seq nat) :=
  let '(nb, nd) := st in
  if odd subnetwork_size then
    olet nb1 <- aw_nset nb left hi (hi, hi);
    olet dest <- vget rhs_dests (hi - lo);
    olet nb2 <- aw_nset nb1 right hi (dest, dest);
    olet nd1 <- vset nd (hi - lo) hi;
    Some (nb2, nd1)
  else
    olet col <- vget nb left;
    olet e0 <- vget col (hi - 1);
    olet e1 <- vget col hi;
    olet nb1 <- aw_nset nb left (hi - 1) (e0.1, e0.1);
    olet nb2 <- aw_nset nb1 left hi (e1.1, e1.1);
    Some (nb2, nd).

(** as_waksman.hpp:202-297 [construct_as_waksman_inner]. 244: [new_rhs_dests] is filled with -1 (here 0): every
    entry is overwritten. The loop over [row_idx] visits the [subnetwork_size / 2] even relative positions. *)
Fixpoint construct_as_waksman_inner (fuel left right lo hi : nat) (rhs_dests : seq nat) (neighbors : aw_topology)
    : option aw_topology :=
  if left > right then Some neighbors
  else if fuel is fuel'.+1 then
    let subnetwork_size := (hi - lo + 1)%N in
    oguard size rhs_dests == subnetwork_size;
    let subnetwork_width := aw_num_columns subnetwork_size in
    oguard right - left + 1 >= subnetwork_width;
    if right - left + 1 > subnetwork_width then
      olet nb1 <- ofold (aw_straight left right lo rhs_dests) neighbors (iota lo subnetwork_size);
      oguard right > 0;
      construct_as_waksman_inner fuel' left.+1 right.-1 lo hi (iota lo subnetwork_size) nb1
    else if subnetwork_size == 2 then
      olet d0 <- vget rhs_dests 0;
      olet d1 <- vget rhs_dests 1;
      olet nb1 <- aw_nset neighbors left lo (d0, d1);
      aw_nset nb1 left hi (d1, d0)
    else
      olet st <- ofold (aw_switches left right lo subnetwork_size rhs_dests) (neighbors, nseq subnetwork_size 0)
                   [seq (lo + 2 * i)%N | i <- iota 0 (subnetwork_size %/ 2)];
      olet (nb, nd) <- aw_last left right lo hi subnetwork_size rhs_dests st;
      let d := aw_top_height subnetwork_size in
      oguard (0 < d) && (0 < right);
      olet nb' <- construct_as_waksman_inner fuel' left.+1 right.-1 lo (lo + d - 1) (take d nd) nb;
      construct_as_waksman_inner fuel' left.+1 right.-1 (lo + d) hi (drop d nd) nb'
  else None.

(** as_waksman.hpp:299-315 [generate_as_waksman_topology]; the entries are initially -1 (here 0): every entry is overwritten *)
Definition generate_as_waksman_topology (num_packets : nat) : option aw_topology :=
  oguard num_packets > 1;
  let width := aw_num_columns num_packets in
  oguard width > 0;
  construct_as_waksman_inner width 0 (width - 1) 0 (num_packets - 1) (iota 0 num_packets) (nseq width (nseq num_packets (0, 0))).

(** as_waksman.hpp:324-327 [as_waksman_get_canonical_row_idx] *)
Definition aw_canonical (row_offset row_idx : nat) : nat := ((row_idx - row_offset) %/ 2 * 2 + row_offset)%N.

(** as_waksman.hpp:339-344 *)
Definition aw_setting_of_decision (row_offset packet_idx : nat) (use_top : bool) : bool :=
  (packet_idx == aw_canonical row_offset packet_idx) (+) use_top.

(** as_waksman.hpp:356-361 *)
Definition aw_decision_of_setting (row_offset packet_idx : nat) (switch_setting : bool) : bool :=
  (aw_canonical row_offset packet_idx == packet_idx) (+) switch_setting.

(** as_waksman.hpp:367-370 [as_waksman_other_output_position], and 376-379 [as_waksman_other_input_position] *)
Definition aw_other (row_offset packet_idx : nat) : nat :=
  let row_idx := aw_canonical row_offset packet_idx in ((1 - (packet_idx - row_idx)) + row_idx)%N.

(** [routing[c].find(r)]; [routing[c][r] = b]; [routing[c].erase(r)] *)
Definition aw_rget (routing : aw_routing) (c r : nat) : option (option bool) := omap (fun col => om_get col r) (vget routing c).
Definition aw_rset (routing : aw_routing) (c r : nat) (b : bool) : option aw_routing :=
  olet col <- vget routing c; vset routing c (om_set col r b).
Definition aw_erase (routing : aw_routing) (c r : nat) : option aw_routing :=
  olet col <- vget routing c; vset routing c [seq e <- col | e.1 != r].

(** as_waksman.hpp:434-443, the local variables of the loop *)
Record aw_state := AwState { aw_perm : iperm; aw_inv : iperm; aw_routed : seq bool; aw_to_route : nat; aw_max : nat;
  aw_left : bool; aw_r : aw_routing }.

(** as_waksman.hpp:445-492, before the loop *)
Definition aw_start (left right lo hi subnetwork_size : nat) (permutation : iperm) (routing : aw_routing) : option aw_state :=
  let np := ip_range lo hi in
  let npi := ip_range lo hi in
  if odd subnetwork_size then
    olet y <- ip_get permutation hi;
    oguard 0 < hi;
    if y == hi then
      olet np1 <- ip_set np hi hi;
      olet npi1 <- ip_set npi hi hi;
      olet routed <- vset (nseq subnetwork_size false) (hi - lo) true;
      Some (AwState np1 npi1 routed (hi - 1) (hi - 1) true routing)
    else
      let rhs_switch := aw_canonical lo y in
      olet routing1 <- aw_rset routing right rhs_switch (aw_setting_of_decision lo y false);
      olet tprime <- aw_switch_input subnetwork_size lo rhs_switch false;
      olet np1 <- ip_set np hi tprime;
      olet npi1 <- ip_set npi tprime hi;
      olet routed <- vset (nseq subnetwork_size false) (hi - lo) true;
      Some (AwState np1 npi1 routed (aw_other lo y) (hi - 1) false routing1)
  else
    oguard 0 < hi;
    olet routing1 <- aw_rset routing left (hi - 1) false;
    Some (AwState np npi (nseq subnetwork_size false) hi hi true routing1).

(** as_waksman.hpp:499-538, routing a packet of the left-hand side *)
Definition aw_forward (left right lo hi subnetwork_size : nat) (permutation : iperm) (st : aw_state) : option aw_state :=
  let '(AwState np npi routed to_route mx _ routing) := st in
  let lhs_switch := aw_canonical lo to_route in
  olet found <- aw_rget routing left lhs_switch;
  olet routing1 <- (if found is Some _ then Some routing else aw_rset routing left lhs_switch false);
  let lhs_switch_setting := odflt false found in
  let use_top := aw_decision_of_setting lo to_route lhs_switch_setting in
  olet t <- aw_switch_output subnetwork_size lo lhs_switch use_top;
  olet y <- ip_get permutation to_route;
  if y == hi then
    olet np1 <- ip_set np t hi;
    olet npi1 <- ip_set npi hi t;
    olet routed1 <- vset routed (to_route - lo) true;
    Some (AwState np1 npi1 routed1 mx mx true routing1)
  else
    let rhs_switch := aw_canonical lo y in
    olet rfound <- aw_rget routing1 right rhs_switch;
    oguard ~~ isSome rfound;
    olet routing2 <- aw_rset routing1 right rhs_switch (aw_setting_of_decision lo y use_top);
    olet tprime <- aw_switch_input subnetwork_size lo rhs_switch use_top;
    olet np1 <- ip_set np t tprime;
    olet npi1 <- ip_set npi tprime t;
    olet routed1 <- vset routed (to_route - lo) true;
    Some (AwState np1 npi1 routed1 (aw_other lo y) mx false routing2).

(** as_waksman.hpp:539-569, back-routing from the right-hand side *)
Definition aw_backward (left right lo hi subnetwork_size : nat) (permutation_inv : iperm) (st : aw_state) : option aw_state :=
  let '(AwState np npi routed to_route mx _ routing) := st in
  let rhs_switch := aw_canonical lo to_route in
  olet x <- ip_get permutation_inv to_route;
  let lhs_switch := aw_canonical lo x in
  olet rfound <- aw_rget routing right rhs_switch;
  olet rhs_switch_setting <- rfound;
  let use_top := aw_decision_of_setting lo to_route rhs_switch_setting in
  let lhs_switch_setting := aw_setting_of_decision lo x use_top in
  olet lfound <- aw_rget routing left lhs_switch;
  oguard (lfound == None) || (lfound == Some lhs_switch_setting);
  olet routing1 <- aw_rset routing left lhs_switch lhs_switch_setting;
  olet t <- aw_switch_input subnetwork_size lo rhs_switch use_top;
  olet tprime <- aw_switch_output subnetwork_size lo lhs_switch use_top;
  olet np1 <- ip_set np tprime t;
  olet npi1 <- ip_set npi t tprime;
  olet routed1 <- vset routed (x - lo) true;
  Some (AwState np1 npi1 routed1 (aw_other lo x) mx true routing1).

(** as_waksman.hpp:577-579 [while (max_unrouted > lo && lhs_routed[max_unrouted - lo]) --max_unrouted]; the argument and the
    result are relative to [lo] *)
Fixpoint aw_down (routed : seq bool) (k : nat) : option nat :=
  if k is k'.+1 then olet b <- vget routed k; if b then aw_down routed k' else Some k else Some 0.

(** as_waksman.hpp:494-592, one iteration; the boolean is [true] at the [break] *)
Definition aw_step (left right lo hi subnetwork_size : nat) (permutation permutation_inv : iperm) (st : aw_state)
    : option (bool * aw_state) :=
  olet st1 <- (if aw_left st then aw_forward left right lo hi subnetwork_size permutation st
               else aw_backward left right lo hi subnetwork_size permutation_inv st);
  olet again <- (if ~~ aw_left st1 then Some true else omap negb (vget (aw_routed st1) (aw_to_route st1 - lo)));
  if again then Some (false, st1) else
  olet k <- aw_down (aw_routed st1) (aw_max st1 - lo);
  olet first <- vget (aw_routed st1) 0;
  let mx := (lo + k)%N in
  let '(AwState np npi routed _ _ _ routing) := st1 in
  Some ((mx == lo) && first, AwState np npi routed mx mx true routing).

Fixpoint aw_loop (fuel left right lo hi subnetwork_size : nat) (permutation permutation_inv : iperm) (st : aw_state)
    : option aw_state :=
  if fuel is fuel'.+1 then
    olet r <- aw_step left right lo hi subnetwork_size permutation permutation_inv st;
    if r.1 then Some r.2 else aw_loop fuel' left right lo hi subnetwork_size permutation permutation_inv r.2
  else None.

(** as_waksman.hpp:394-610 [as_waksman_route_inner] *)
Fixpoint as_waksman_route_inner (fuel left right lo hi : nat) (permutation permutation_inv : iperm) (routing : aw_routing)
    : option aw_routing :=
  if left > right then Some routing
  else if fuel is fuel'.+1 then
    let subnetwork_size := (hi - lo + 1)%N in
    let subnetwork_width := aw_num_columns subnetwork_size in
    oguard right - left + 1 >= subnetwork_width;
    if right - left + 1 > subnetwork_width then
      oguard right > 0;
      as_waksman_route_inner fuel' left.+1 right.-1 lo hi permutation permutation_inv routing
    else if subnetwork_size == 2 then
      olet y0 <- ip_get permutation lo;
      olet y1 <- ip_get permutation lo.+1;
      oguard (y0 == lo) || (y0 == lo.+1);
      oguard (y1 == lo) || (y1 == lo.+1);
      oguard y0 != y1;
      aw_rset routing left lo (y0 != lo)
    else
      olet st0 <- aw_start left right lo hi subnetwork_size permutation routing;
      olet st <- aw_loop (2 * subnetwork_size + 1) left right lo hi subnetwork_size permutation permutation_inv st0;
      olet routing1 <- (if odd subnetwork_size then Some (aw_r st) else aw_erase (aw_r st) left (hi - 1));
      let d := aw_top_height subnetwork_size in
      oguard (0 < d) && (0 < right);
      olet upper <- ip_slice (aw_perm st) lo (lo + d - 1);
      olet lower <- ip_slice (aw_perm st) (lo + d) hi;
      olet upper_inv <- ip_slice (aw_inv st) lo (lo + d - 1);
      olet lower_inv <- ip_slice (aw_inv st) (lo + d) hi;
      olet routing2 <- as_waksman_route_inner fuel' left.+1 right.-1 lo (lo + d - 1) upper upper_inv routing1;
      as_waksman_route_inner fuel' left.+1 right.-1 (lo + d) hi lower lower_inv routing2
  else None.

(** as_waksman.hpp:612-620 [get_as_waksman_routing]; for one packet [width - 1] wraps around *)
Definition get_as_waksman_routing (permutation : iperm) : option aw_routing :=
  let num_packets := ip_size permutation in
  let width := aw_num_columns num_packets in
  oguard width > 0;
  olet inv <- ip_inverse permutation;
  as_waksman_route_inner width 0 (width - 1) 0 (num_packets - 1) permutation inv (nseq width [::]).

(** as_waksman.hpp:634-646, the position of one packet in the next column *)
Definition aw_move (topo : seq (nat * nat)) (col : omapT bool) (packet_idx : nat) : option nat :=
  olet e <- vget topo packet_idx;
  if e.1 == e.2 then Some e.1 else
    let it := om_get col packet_idx in
    let it2 := if packet_idx is p'.+1 then om_get col p' else None in
    oguard isSome it (+) isSome it2;
    olet switch_setting <- (if isSome it then it else it2);
    Some (if switch_setting then e.2 else e.1).

(** as_waksman.hpp:622-654 [valid_as_waksman_routing] *)
Definition valid_as_waksman_routing (permutation : iperm) (routing : aw_routing) : option bool :=
  let num_packets := ip_size permutation in
  let width := aw_num_columns num_packets in
  olet neighbors <- generate_as_waksman_topology num_packets;
  olet final <- ofold (fun curperm column_idx =>
      olet topo <- vget neighbors column_idx;
      olet col <- vget routing column_idx;
      ofold (fun nextperm packet_idx =>
        olet dest <- aw_move topo col packet_idx;
        olet x <- ip_get curperm packet_idx;
        ip_set nextperm dest x) (ip_of_size num_packets) (iota 0 num_packets))
    (ip_of_size num_packets) (iota 0 width);
  olet inv <- ip_inverse permutation;
  Some (final == inv).
