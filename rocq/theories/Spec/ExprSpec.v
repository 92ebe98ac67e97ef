(** Vocabulary for the statements about expressions (C14-C18). *)
From Coq Require Import NArith.
From mathcomp Require Import all_ssreflect all_algebra.
From Verif.Model Require Import Expression.
Set Implicit Arguments.
Unset Strict Implicit.
Unset Printing Implicit Defensive.
Import GRing.Theory.
Local Open Scope ring_scope.

Section Spec.
Variables (V : eqType) (R : comRingType).

(** the value of a list of monomials: the sum over the list of coefficient times product of the variables *)
Definition sum_of_monomials (g : V -> R) (l : seq (eterm V R)) : R :=
  \sum_(t <- l) t_coeff t * \prod_(v <- t_vars t) g v.

(** every power in the expression is at least one *)
Fixpoint powers_positive (e : expr V R) : bool :=
  match e with Term _ => true | Pow b n => (0 < n)%N && powers_positive b | Bin _ a b => powers_positive a && powers_positive b end.

(** the degree computed without wrap-around *)
Fixpoint exact_degree (e : expr V R) : N :=
  match e with
  | Term t => N.of_nat (size (t_vars t))
  | Pow b n => N.mul (exact_degree b) (N.of_nat n)
  | Bin MULT a b => N.add (exact_degree a) (exact_degree b)
  | Bin _ a b => N.max (exact_degree a) (exact_degree b)
  end.
(** the degree of every subexpression fits in 32 bits *)
Fixpoint degree_fits (e : expr V R) : bool :=
  N.ltb (exact_degree e) (N.pow 2 32) &&
  match e with Term _ => true | Pow b _ => degree_fits b | Bin _ a b => degree_fits a && degree_fits b end.
End Spec.
