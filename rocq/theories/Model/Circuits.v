(** Model of snark/arithmetization/circuit_satisfaction_problems/{bacs,tbcs}.hpp and of
    snark/reductions/{bacs_to_r1cs,tbcs_to_uscs}.hpp *)
From mathcomp Require Import all_ssreflect all_algebra.
From Verif.Model Require Import Base LinearCombination ConstraintSystems.
Set Implicit Arguments.
Unset Strict Implicit.
Unset Printing Implicit Defensive.
Import GRing.Theory.
Local Open Scope ring_scope.

Section Bacs.
Variable F : fieldType.

(** bacs.hpp:64-76 [bacs_gate] (the output variable is its index) *)
Record bacs_gate := BacsGate {
  bg_lhs : lc F; bg_rhs : lc F; bg_output : nat; bg_is_circuit_output : bool }.

(** (Structural equality, so that [\in] can be used in statements; not a C++ function.) *)
Definition bacs_gate_tuple (g : bacs_gate) := (bg_lhs g, bg_rhs g, bg_output g, bg_is_circuit_output g).
Definition bacs_gate_of_tuple (k : lc F * lc F * nat * bool) := BacsGate k.1.1.1 k.1.1.2 k.1.2 k.2.
Lemma bacs_gate_tupleK : cancel bacs_gate_tuple bacs_gate_of_tuple. Proof. by case. Qed.
Definition bacs_gate_eqMixin := CanEqMixin bacs_gate_tupleK.
Canonical bacs_gate_eqType := Eval hnf in EqType bacs_gate bacs_gate_eqMixin.

(** bacs.hpp:73-75 [bacs_gate::evaluate] *)
Definition bacs_gate_evaluate (g : bacs_gate) (input : seq F) : option F :=
  obnd (lc_evaluate (bg_lhs g) input) (fun l =>
  obnd (lc_evaluate (bg_rhs g) input) (fun r => Some (l * r))).

(** bacs.hpp:111-130 [bacs_circuit] *)
Record bacs := Bacs {
  b_primary_input_size : nat; b_auxiliary_input_size : nat; b_gates : seq bacs_gate }.

Definition b_num_inputs (c : bacs) := (b_primary_input_size c + b_auxiliary_input_size c)%N.
Definition b_num_gates (c : bacs) := size (b_gates c).
Definition b_num_wires (c : bacs) := (b_num_inputs c + b_num_gates c)%N.

(** bacs.hpp:132-151 [wire_depths]; [None] is an out-of-range read of [depths] *)
Definition b_wire_depths (c : bacs) : option (seq nat) :=
  ofold (fun depths g =>
      obnd (ofold (fun m (t : term F) => obnd (vget depths t.1) (fun d => Some (maxn m d))) 0%N (bg_lhs g)) (fun m1 =>
      obnd (ofold (fun m (t : term F) => obnd (vget depths t.1) (fun d => Some (maxn m d))) m1 (bg_rhs g)) (fun m2 =>
      Some (rcons depths m2.+1))))
    (0%N :: nseq (b_num_inputs c) 1%N) (b_gates c).

(** bacs.hpp:158-178 [is_valid], gate by gate; [i] is the loop counter *)
Fixpoint bacs_valid_loop (num_inputs i : nat) (gs : seq bacs_gate) : option bool :=
  if gs is g :: gs' then
    if bg_output g != (1 + num_inputs + i)%N then Some false else
    oand (oand (lc_is_valid (bg_lhs g) (bg_output g)) (lc_is_valid (bg_rhs g) (bg_output g)))
         (bacs_valid_loop num_inputs i.+1 gs')
  else Some true.
Definition b_is_valid (c : bacs) : option bool := bacs_valid_loop (b_num_inputs c) 0 (b_gates c).

(** bacs.hpp:211-229 [get_all_wires] (size asserts are preconditions) *)
Definition b_get_all_wires (c : bacs) (primary auxiliary : seq F) : option (seq F) :=
  ofold (fun result g => obnd (bacs_gate_evaluate g result) (fun v => Some (rcons result v)))
        (primary ++ auxiliary) (b_gates c).

(** bacs.hpp:194-209 [get_all_outputs] *)
Definition b_get_all_outputs (c : bacs) (primary auxiliary : seq F) : option (seq F) :=
  obnd (b_get_all_wires c primary auxiliary) (fun all_wires =>
  ofold (fun outs g =>
      if bg_is_circuit_output g
      then obnd (vget all_wires (bg_output g).-1) (fun v => Some (rcons outs v))
      else Some outs) [::] (b_gates c)).

(** bacs.hpp:180-192 [is_satisfied]: every output is zero *)
Definition b_is_satisfied (c : bacs) (primary auxiliary : seq F) : option bool :=
  obnd (b_get_all_outputs c primary auxiliary) (fun outs => Some (all (fun v => v == 0) outs)).

(** bacs_to_r1cs.hpp:53-71 [instance_map] *)
Definition bacs_to_r1cs_instance (c : bacs) : r1cs F :=
  R1cs (b_primary_input_size c) (b_auxiliary_input_size c + size (b_gates c))%N
    ([seq R1csConstraint (bg_lhs g) (bg_rhs g) (lc_var F (bg_output g)) | g <- b_gates c] ++
     [seq R1csConstraint (lc_const 1) (lc_var F (bg_output g)) (lc_const 0)
       | g <- b_gates c & bg_is_circuit_output g]).

(** bacs_to_r1cs.hpp:76-83 [witness_map] *)
Definition bacs_to_r1cs_witness (c : bacs) (primary auxiliary : seq F) : option (seq F) :=
  b_get_all_wires c primary auxiliary.
End Bacs.

(** tbcs.hpp:71-89 [tbcs_gate_type]: the 4-bit opcode, most significant bit is g(0,0). Values
    of 16 and above are not members of the enum. *)
Record tbcs_gate := TbcsGate {
  tg_left : nat; tg_right : nat; tg_type : nat; tg_output : nat; tg_is_circuit_output : bool }.

(** (Structural equality, as above.) *)
Definition tbcs_gate_tuple (g : tbcs_gate) :=
  (tg_left g, tg_right g, tg_type g, tg_output g, tg_is_circuit_output g).
Definition tbcs_gate_of_tuple (k : nat * nat * nat * nat * bool) :=
  TbcsGate k.1.1.1.1 k.1.1.1.2 k.1.1.2 k.1.2 k.2.
Lemma tbcs_gate_tupleK : cancel tbcs_gate_tuple tbcs_gate_of_tuple. Proof. by case. Qed.
Definition tbcs_gate_eqMixin := CanEqMixin tbcs_gate_tupleK.
Canonical tbcs_gate_eqType := Eval hnf in EqType tbcs_gate tbcs_gate_eqMixin.

(** tbcs.hpp:120-125: the truth table lookup [type & (1u << pos)] with [pos = 3 - (2X + Y)] *)
Definition tbcs_table (type : nat) (X Y : bool) : bool :=
  let pos := (3 - ((if X then 2 else 0) + (if Y then 1 else 0)))%N in
  odd (type %/ 2 ^ pos)%N.

(** tbcs.hpp:114-126 [tbcs_gate::evaluate]; wire 0 is the constant true *)
Definition tbcs_read (input : seq bool) (w : nat) : option bool :=
  if w is i.+1 then vget input i else Some true.
Definition tbcs_gate_evaluate (g : tbcs_gate) (input : seq bool) : option bool :=
  obnd (tbcs_read input (tg_left g)) (fun X =>
  obnd (tbcs_read input (tg_right g)) (fun Y => Some (tbcs_table (tg_type g) X Y))).

(** tbcs.hpp:160-178 [tbcs_circuit] *)
Record tbcs := Tbcs {
  t_primary_input_size : nat; t_auxiliary_input_size : nat; t_gates : seq tbcs_gate }.
Definition t_num_inputs (c : tbcs) := (t_primary_input_size c + t_auxiliary_input_size c)%N.
Definition t_num_gates (c : tbcs) := size (t_gates c).
Definition t_num_wires (c : tbcs) := (t_num_inputs c + t_num_gates c)%N.

(** tbcs.hpp:180-188 [wire_depths]; [None] is an out-of-range read *)
Definition t_wire_depths (c : tbcs) : option (seq nat) :=
  ofold (fun depths g =>
      obnd (vget depths (tg_left g)) (fun a =>
      obnd (vget depths (tg_right g)) (fun b => Some (rcons depths (maxn a b).+1))))
    (nseq (t_num_inputs c) 1%N) (t_gates c).

(** tbcs.hpp:195-214 [is_valid] *)
Fixpoint tbcs_valid_loop (num_inputs i : nat) (gs : seq tbcs_gate) : bool :=
  if gs is g :: gs' then
    if tg_output g != (num_inputs + i + 1)%N then false
    else if (tg_left g >= tg_output g)%N || (tg_right g >= tg_output g)%N then false
    else tbcs_valid_loop num_inputs i.+1 gs'
  else true.
Definition t_is_valid (c : tbcs) : bool := tbcs_valid_loop (t_num_inputs c) 0 (t_gates c).

(** tbcs.hpp:228-245 [get_all_wires] *)
Definition t_get_all_wires (c : tbcs) (primary auxiliary : seq bool) : option (seq bool) :=
  ofold (fun result g => obnd (tbcs_gate_evaluate g result) (fun v => Some (rcons result v)))
        (primary ++ auxiliary) (t_gates c).

(** tbcs.hpp:247-260 [get_all_outputs] *)
Definition t_get_all_outputs (c : tbcs) (primary auxiliary : seq bool) : option (seq bool) :=
  obnd (t_get_all_wires c primary auxiliary) (fun all_wires =>
  ofold (fun outs g =>
      if tg_is_circuit_output g
      then obnd (vget all_wires (tg_output g).-1) (fun v => Some (rcons outs v))
      else Some outs) [::] (t_gates c)).

(** tbcs.hpp:216-226 [is_satisfied]: every output is false *)
Definition t_is_satisfied (c : tbcs) (primary auxiliary : seq bool) : option bool :=
  obnd (t_get_all_outputs c primary auxiliary) (fun outs => Some (all negb outs)).

Section TbcsToUscs.
Variable F : fieldType.

(** tbcs_to_uscs.hpp:75-156: the coefficients (of x, y, z and the constant) of the constraint of
    each gate type; [None] is the [default: assert(0)] branch, which adds no constraint. *)
Definition tbcs_coeffs (type : nat) : option (int * int * int * int) :=
  match type with
  | 0 => Some ((0 : int), (0 : int), (1 : int), (1 : int))
  | 1 => Some ((-2 : int), (-2 : int), (4 : int), (1 : int))
  | 2 => Some ((-2 : int), (2 : int), (4 : int), (-1 : int))
  | 3 => Some ((-1 : int), (0 : int), (1 : int), (1 : int))
  | 4 => Some ((2 : int), (-2 : int), (4 : int), (-1 : int))
  | 5 => Some ((0 : int), (1 : int), (1 : int), (-1 : int))
  | 6 => Some ((1 : int), (1 : int), (1 : int), (-1 : int))
  | 7 => Some ((-2 : int), (-2 : int), (4 : int), (-1 : int))
  | 8 => Some ((2 : int), (2 : int), (4 : int), (-3 : int))
  | 9 => Some ((1 : int), (1 : int), (1 : int), (-2 : int))
  | 10 => Some ((0 : int), (-1 : int), (1 : int), (0 : int))
  | 11 => Some ((-2 : int), (2 : int), (4 : int), (-3 : int))
  | 12 => Some ((-1 : int), (0 : int), (1 : int), (0 : int))
  | 13 => Some ((2 : int), (-2 : int), (4 : int), (-3 : int))
  | 14 => Some ((2 : int), (2 : int), (4 : int), (-5 : int))
  | 15 => Some ((0 : int), (0 : int), (1 : int), (0 : int))
  | _ => None
  end%R.

(** tbcs_to_uscs.hpp:75-156: [a * x + b * y + c * z + d] as a linear combination. The C++
    literals are ints converted to field elements; [operator+] of two terms is read as the
    [linear_combination] merge of linear_combination.hpp:194-227. *)
Definition tbcs_gate_lc (a b c d : int) (x y z : nat) : lc F :=
  lc_add (lc_add (lc_add (lc_term (term_scale (term_of_var F x) a%:~R))
                         (lc_term (term_scale (term_of_var F y) b%:~R)))
                 (lc_term (term_scale (term_of_var F z) c%:~R)))
         (lc_const d%:~R).

Definition tbcs_gate_constraint (g : tbcs_gate) : seq (lc F) :=
  if tbcs_coeffs (tg_type g) is Some (a, b, c, d)
  then [:: tbcs_gate_lc a b c d (tg_left g) (tg_right g) (tg_output g)] else [::].

(** tbcs_to_uscs.hpp:159-164: [2 * variable(i) - 1] *)
Definition tbcs_bool_lc (i : nat) : lc F :=
  lc_sub (lc_term (term_scale (term_of_var F i) 2%:R)) (lc_const 1).

(** tbcs_to_uscs.hpp:166-172: [variable(g.output) + 1] *)
Definition tbcs_output_lc (i : nat) : lc F := var_add_lc i (lc_const 1).

(** tbcs_to_uscs.hpp:63-177 [instance_map]. The booleanity loop runs over i = 0 .. n-1 where n is
    the number of wires, i.e. over the constant and all wires but the last. *)
Definition tbcs_to_uscs_instance (c : tbcs) : uscs F :=
  Uscs (t_primary_input_size c) (t_auxiliary_input_size c + size (t_gates c))%N
    (flatten [seq tbcs_gate_constraint g | g <- t_gates c] ++
     [seq tbcs_bool_lc i
       | i <- iota 0 (t_primary_input_size c + t_auxiliary_input_size c + size (t_gates c))] ++
     [seq tbcs_output_lc (tg_output g) | g <- t_gates c & tg_is_circuit_output g]).

(** [convert_bit_vector_to_field_element_vector] (crypto3-algebra): bits become 0 and 1 *)
Definition bits_to_field (l : seq bool) : seq F := [seq (if b then 1 else 0) | b : bool <- l].

(** tbcs_to_uscs.hpp:182-192 [witness_map] *)
Definition tbcs_to_uscs_witness (c : tbcs) (primary auxiliary : seq bool) : option (seq F) :=
  obnd (t_get_all_wires c primary auxiliary) (fun w => Some (bits_to_field w)).
End TbcsToUscs.
