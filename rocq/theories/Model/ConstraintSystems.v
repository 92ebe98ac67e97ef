(** Model of snark/arithmetization/constraint_satisfaction_problems/{r1cs,uscs}.hpp *)
From mathcomp Require Import all_ssreflect all_algebra.
From Verif.Model Require Import Base LinearCombination.
Set Implicit Arguments.
Unset Strict Implicit.
Unset Printing Implicit Defensive.
Import GRing.Theory.
Local Open Scope ring_scope.

Section CS.
Variable F : fieldType.

(** r1cs.hpp:61-75 [r1cs_constraint] *)
Record r1cs_constraint := R1csConstraint { ra : lc F; rb : lc F; rc : lc F }.

(** (Structural equality, so that [\in] can be used in statements; not a C++ function.) *)
Definition r1cs_constraint_triple (k : r1cs_constraint) := (ra k, rb k, rc k).
Definition r1cs_constraint_of_triple (k : lc F * lc F * lc F) := R1csConstraint k.1.1 k.1.2 k.2.
Lemma r1cs_constraint_tripleK : cancel r1cs_constraint_triple r1cs_constraint_of_triple.
Proof. by case. Qed.
Definition r1cs_constraint_eqMixin := CanEqMixin r1cs_constraint_tripleK.
Canonical r1cs_constraint_eqType := Eval hnf in EqType r1cs_constraint r1cs_constraint_eqMixin.

(** r1cs.hpp:75-87 [r1cs_constraint(initializer_list A, B, C)]: terms are concatenated as they come *)
Definition r1cs_constraint_of_lists (A B C : seq (lc F)) : r1cs_constraint :=
  R1csConstraint (flatten A) (flatten B) (flatten C).

(** r1cs.hpp:125-147 [r1cs_constraint_system] *)
Record r1cs := R1cs {
  r_primary_input_size : nat;
  r_auxiliary_input_size : nat;
  r_constraints : seq r1cs_constraint }.

Definition r_num_inputs (cs : r1cs) := r_primary_input_size cs.
Definition r_num_variables (cs : r1cs) := (r_primary_input_size cs + r_auxiliary_input_size cs)%N.
Definition r_num_constraints (cs : r1cs) := size (r_constraints cs).

(** r1cs.hpp:149-162 [is_valid]; [None] when an empty combination is inspected (UB).
    The C++ [&&] short-circuits, so a failing [a] hides undefined behaviour in [b]. *)
Definition oand (x : option bool) (y : option bool) : option bool :=
  if x is Some b then if b then y else Some false else None.

Definition r_is_valid (cs : r1cs) : option bool :=
  if (r_num_variables cs < r_num_inputs cs)%N then Some false else
  foldr (fun c acc =>
    oand (oand (oand (lc_is_valid (ra c) (r_num_variables cs))
                     (lc_is_valid (rb c) (r_num_variables cs)))
               (lc_is_valid (rc c) (r_num_variables cs))) acc)
   (Some true) (r_constraints cs).

(** r1cs.hpp:173-187 the loop of [is_satisfied]: stops at the first violated constraint *)
Fixpoint r1cs_loop (full : seq F) (cs : seq r1cs_constraint) : option bool :=
  if cs is c :: cs' then
    obnd (lc_evaluate (ra c) full) (fun ares =>
    obnd (lc_evaluate (rb c) full) (fun bres =>
    obnd (lc_evaluate (rc c) full) (fun cres =>
      if ares * bres != cres then Some false else r1cs_loop full cs')))
  else Some true.

(** r1cs.hpp:164-187 [is_satisfied] (the two size asserts at 166-167 are preconditions) *)
Definition r_is_satisfied (cs : r1cs) (primary auxiliary : seq F) : option bool :=
  r1cs_loop (primary ++ auxiliary) (r_constraints cs).

(** r1cs.hpp:193-209 number of distinct variables touched by one side; the C++ keeps a
    bool vector of size num_variables+1 and writes out of range (UB) for larger indices. *)
Definition touched (l : seq (lc F)) (n : nat) : seq bool :=
  [seq has (fun c : lc F => has (fun t => t.1 == i) c) l | i <- iota 0 n.+1].

Definition non_zero_count (l : seq (lc F)) (n : nat) : nat :=
  foldl (fun acc b => (acc + (if b : bool then 1 else 0))%N) 0%N (touched l n).

(** r1cs.hpp:193-218 [swap_AB_if_beneficial] *)
Definition swap_AB_if_beneficial (cs : r1cs) : r1cs :=
  let n := r_num_variables cs in
  if (non_zero_count [seq rb c | c <- r_constraints cs] n
      > non_zero_count [seq ra c | c <- r_constraints cs] n)%N
  then R1cs (r_primary_input_size cs) (r_auxiliary_input_size cs)
            [seq R1csConstraint (rb c) (ra c) (rc c) | c <- r_constraints cs]
  else cs.

(** r1cs.hpp:189-191 [add_constraint] *)
Definition r_add_constraint (cs : r1cs) (c : r1cs_constraint) : r1cs :=
  R1cs (r_primary_input_size cs) (r_auxiliary_input_size cs) (rcons (r_constraints cs) c).

(** uscs.hpp:89-107 [uscs_constraint_system]; a constraint is one linear combination (57-58) *)
Record uscs := Uscs {
  u_primary_input_size : nat;
  u_auxiliary_input_size : nat;
  u_constraints : seq (lc F) }.

Definition u_num_inputs (cs : uscs) := u_primary_input_size cs.
Definition u_num_variables (cs : uscs) := (u_primary_input_size cs + u_auxiliary_input_size cs)%N.

(** uscs.hpp:132-139 loop of [is_satisfied] *)
Fixpoint uscs_loop (full : seq F) (cs : seq (lc F)) : option bool :=
  if cs is c :: cs' then
    obnd (lc_evaluate c full) (fun res =>
      if ~~ (res * res == 1) then Some false else uscs_loop full cs')
  else Some true.

(** uscs.hpp:124-141 [is_satisfied] *)
Definition u_is_satisfied (cs : uscs) (primary auxiliary : seq F) : option bool :=
  uscs_loop (primary ++ auxiliary) (u_constraints cs).

(** uscs.hpp:143-145 [add_constraint] *)
Definition u_add_constraint (cs : uscs) (c : lc F) : uscs :=
  Uscs (u_primary_input_size cs) (u_auxiliary_input_size cs) (rcons (u_constraints cs) c).

End CS.
