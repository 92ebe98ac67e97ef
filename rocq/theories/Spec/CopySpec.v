(** What copy constraints mean, independently of how the code represents them. *)
From mathcomp Require Import all_ssreflect.
Set Implicit Arguments.
Unset Strict Implicit.
Unset Printing Implicit Defensive.

Section Linked.
Variables (K : Type) (pairs : K -> K -> Prop).
(** The equivalence relation generated by the constrained pairs. *)
Inductive linked : K -> K -> Prop :=
  | linked_pair x y : pairs x y -> linked x y
  | linked_refl x : linked x x
  | linked_sym x y : linked x y -> linked y x
  | linked_trans x y z : linked x y -> linked y z -> linked x z.
End Linked.

(** [y] is reached from [x] by following the partial map [next] any number of times. *)
Definition same_cycle (K : Type) (next : K -> option K) (x y : K) : Prop :=
  exists n, iter n (obind next) (Some x) = Some y.
