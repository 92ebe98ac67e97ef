(** Specification of lookups: adjacent pairs and contiguous runs. *)
From mathcomp Require Import all_ssreflect all_algebra.
Set Implicit Arguments.
Unset Strict Implicit.
Unset Printing Implicit Defensive.
Import GRing.Theory.
Local Open Scope ring_scope.

(** every value other than [z] occurs in one run *)
Definition contiguous_but (T : eqType) (z : T) (s : seq T) : Prop :=
  forall i k j, (i <= k)%N -> (k <= j)%N -> (j < size s)%N -> nth z s i = nth z s j -> nth z s i != z -> nth z s k = nth z s i.

Section Spec.
Variable F : fieldType.
(** the adjacent pairs of a sequence *)
Definition pairs (s : seq F) : seq (F * F) := zip s (behead s).
(** every non-zero value occurs in one run *)
Definition contiguous (s : seq F) : Prop := contiguous_but 0 s.
End Spec.
