(** Independent specification of linear combinations and rank-1 / unitary-square systems. *)
From mathcomp Require Import all_ssreflect all_algebra.
Set Implicit Arguments.
Unset Strict Implicit.
Unset Printing Implicit Defensive.
Import GRing.Theory.
Local Open Scope ring_scope.

Section LinearSpec.
Variable F : fieldType.

(** The value of variable [x_i]: [x_0] is the constant one, [x_1, x_2, ...] are the assignment. *)
Definition var_value (x : seq F) (i : nat) : F := nth 0 (1 :: x) i.

(** The number denoted by a list of (index, coefficient) pairs. *)
Definition denote (l : seq (nat * F)) (x : seq F) : F :=
  \sum_(t <- l) t.2 * var_value x t.1.

(** The coefficient of [x_i] in the formal sum. *)
Definition coef_of (l : seq (nat * F)) (i : nat) : F := \sum_(t <- l | t.1 == i) t.2.

(** All variables mentioned exist in an assignment of [n] variables. *)
Definition vars_in (l : seq (nat * F)) (n : nat) : Prop := forall t, t \in l -> (t.1 <= n)%N.

(** Strictly increasing indices. *)
Definition strictly_sorted (l : seq (nat * F)) : Prop := sorted ltn [seq t.1 | t <- l].

(** What the C++ standard promises about [std::sort] with the index comparison. *)
Definition sorts_by_index (srt : seq (nat * F) -> seq (nat * F)) : Prop :=
  forall l, perm_eq (srt l) l /\ sorted leq [seq t.1 | t <- srt l].

End LinearSpec.
