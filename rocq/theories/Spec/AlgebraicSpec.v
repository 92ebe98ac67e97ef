(** Linear (algebraic) strategies: a dishonest prover that outputs fixed linear combinations of the group elements of
    the key it was given. *)
From mathcomp Require Import all_ssreflect all_algebra.
Set Implicit Arguments.
Unset Strict Implicit.
Unset Printing Implicit Defensive.
Import GRing.Theory.
Local Open Scope ring_scope.

(** The combination of the elements [s] with the coefficients [c] (missing coefficients are zero). *)
Definition lin (F : fieldType) (V : lmodType F) (c : seq F) (s : seq V) : V := \sum_(i < size s) nth 0 c i *: nth 0 s i.
