(** C17: conversion to a flat sum of monomials preserves the value. *)
From Coq Require Import Permutation.
From mathcomp Require Import all_ssreflect all_algebra.
From Verif.Model Require Import Base HashMap Expression PlonkVariable.
From Verif.Spec Require Import ExprSpec.
From Verif.Proofs Require Import MapProofs ExprProofs.
Set Implicit Arguments.
Unset Strict Implicit.
Unset Printing Implicit Defensive.
Import GRing.Theory.
Local Open Scope ring_scope.

Section C17.
Variables (V : eqType) (R : comRingType).
Implicit Types (e : expr V R) (l : seq (eterm V R)).

(** For every assignment the sum of the monomials is the value of the expression, whatever order the hash map yields
    the merged monomials in. *)
Theorem C17_value e l (g : V -> R) : powers_positive e -> Permutation l (nlc_convert e) ->
  sum_of_monomials g l = evaluate g e.
Proof.
move=> hp pm; rewrite -(nval_to_nlc g hp) -nval_merge nval_spec -/(nlc_convert e).
elim: pm => [|t l1 l2 _ IH|t u l1|l1 l2 l3 _ -> _ ->] //; rewrite /sum_of_monomials !big_cons.
  by move: IH; rewrite /sum_of_monomials => ->.
by rewrite addrCA.
Qed.

(** Merging leaves no two monomials with the same variables (as multisets) and no zero coefficient. *)
Theorem C17_merged e : pairwise (fun t u => ~~ perm_eq (t_vars t) (t_vars u)) (nlc_convert e) /\
  all (fun t => t_coeff t != 0) (nlc_convert e).
Proof. exact: merge_distinct. Qed.

(** Merging preserves the value of any list of monomials. *)
Theorem C17_merge l (g : V -> R) : sum_of_monomials g (merge_equal_terms l) = sum_of_monomials g l.
Proof. by rewrite -!nval_spec nval_merge. Qed.

(** The operators of sums of monomials. *)
Theorem C17_operators (a b : nlc V R) (c : R) (g : V -> R) :
  [/\ sum_of_monomials g (nlc_add a b) = sum_of_monomials g a + sum_of_monomials g b,
      sum_of_monomials g (nlc_sub a b) = sum_of_monomials g a - sum_of_monomials g b,
      sum_of_monomials g (nlc_mul a b) = sum_of_monomials g a * sum_of_monomials g b,
      sum_of_monomials g (nlc_scale a c) = sum_of_monomials g a * c &
      sum_of_monomials g (nlc_opp a) = - sum_of_monomials g a].
Proof.
by rewrite -!nval_spec nval_add nval_sub nval_mul nval_scale nval_scale mulrN1.
Qed.
End C17.

(** ** Finding: power zero is converted to the base itself (the loop starts from the base), so [x^0] becomes [x]. *)
Theorem C17_power_zero_refuted : exists (R : comRingType) (e : expr [eqType of nat] R) (g : nat -> R),
  sum_of_monomials g (nlc_convert e) != evaluate g e.
Proof.
exists [comRingType of 'F_7], (Pow (expr_var _ 0%N) 0), (fun=> 3%R).
by rewrite -nval_spec /nval /= big_seq1 eval_termE /= big_seq1.
Qed.

(** (x + y)^2 - x*x*1 - 2*x*y = y*y: two monomials cancel, one remains. *)
Example C17_witness :
  let F := [fieldType of 'F_17] in
  let x := expr_var F 0%N in let y := expr_var F 1%N in
  let e := Bin SUB (Bin SUB (Pow (Bin ADD x y) 2) (Term (ETerm [:: 0%N; 0%N] (1 : F)))) (Term (ETerm [:: 1%N; 0%N] (2 : F))) in
  powers_positive e /\ [seq (t_vars t, t_coeff t) | t <- nlc_convert e] = [:: ([:: 1%N; 1%N], 1)].
Proof. by vm_decide. Qed.

Print Assumptions C17_value.
Print Assumptions C17_merged.
Print Assumptions C17_merge.
Print Assumptions C17_operators.
Print Assumptions C17_power_zero_refuted.
