(** Model of include/nil/crypto3/zk/math/integer_permutation.hpp. [size_t] is [nat]; the assertions on positions are
    [None]. The empty permutation (constructor argument 0, whose max_element wraps around) is not modelled. *)
From mathcomp Require Import all_ssreflect.
From Verif.Model Require Import Base.
Set Implicit Arguments.
Unset Strict Implicit.
Unset Printing Implicit Defensive.

(** integer_permutation.hpp:40-46: the private vector and the range *)
Record iperm := IPerm { ip_contents : seq nat; ip_min : nat; ip_max : nat }.

(** (Structural equality; also integer_permutation.hpp:75-78 [operator==].) *)
Definition iperm_tuple (p : iperm) := (ip_contents p, ip_min p, ip_max p).
Definition iperm_of_tuple (k : seq nat * nat * nat) := IPerm k.1.1 k.1.2 k.2.
Lemma iperm_tupleK : cancel iperm_tuple iperm_of_tuple. Proof. by case. Qed.
Definition iperm_eqMixin := CanEqMixin iperm_tupleK.
Canonical iperm_eqType := Eval hnf in EqType iperm iperm_eqMixin.

(** integer_permutation.hpp:48-51, for a positive size *)
Definition ip_of_size (n : nat) : iperm := IPerm (iota 0 n) 0 (n - 1).

(** integer_permutation.hpp:53-59 (the assertion of 55 is a precondition of the callers) *)
Definition ip_range (mn mx : nat) : iperm := IPerm (iota mn (mx - mn + 1)) mn mx.

(** integer_permutation.hpp:63-65 *)
Definition ip_size (p : iperm) : nat := (ip_max p - ip_min p + 1)%N.

(** integer_permutation.hpp:80-83 [set] *)
Definition ip_set (p : iperm) (position value : nat) : option iperm :=
  if (ip_min p <= position) && (position <= ip_max p) then
    omap (fun c => IPerm c (ip_min p) (ip_max p)) (vset (ip_contents p) (position - ip_min p) value)
  else None.

(** integer_permutation.hpp:85-88 [get] *)
Definition ip_get (p : iperm) (position : nat) : option nat :=
  if (ip_min p <= position) && (position <= ip_max p) then vget (ip_contents p) (position - ip_min p) else None.

(** integer_permutation.hpp:90-102 [is_valid]; [elems] is the set of elements seen *)
Fixpoint ip_valid_loop (mn mx : nat) (elems : seq nat) (l : seq nat) : bool :=
  if l is el :: l' then
    if (el < mn) || (el > mx) || (el \in elems) then false else ip_valid_loop mn mx (el :: elems) l'
  else true.
Definition ip_is_valid (p : iperm) : bool := ip_valid_loop (ip_min p) (ip_max p) [::] (ip_contents p).

(** integer_permutation.hpp:104-116 [inverse]; an element below min_element makes the unsigned index wrap around
    (out of range) *)
Definition ip_inverse (p : iperm) : option iperm :=
  omap (fun c => IPerm c (ip_min p) (ip_max p))
    (ofold (fun result position =>
       obnd (vget (ip_contents p) (position - ip_min p)) (fun v =>
       if v < ip_min p then None else vset result (v - ip_min p) position))
     (ip_contents (ip_range (ip_min p) (ip_max p))) (iota (ip_min p) (ip_max p - ip_min p + 1))).

(** integer_permutation.hpp:118-131 [slice]; [None]: assertion violated or copy past the end *)
Definition ip_slice (p : iperm) (a b : nat) : option iperm :=
  if (ip_min p <= a) && (a <= b) && (b <= ip_max p) && (b - ip_min p + 1 <= size (ip_contents p)) then
    Some (IPerm (take (b - a + 1) (drop (a - ip_min p) (ip_contents p))) a b)
  else None.
