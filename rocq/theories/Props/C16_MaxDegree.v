(** C16: the degree visitor bounds the true degree. *)
From Coq Require Import NArith.
From mathcomp Require Import all_ssreflect all_algebra.
From Verif.Model Require Import Base HashMap Expression PlonkVariable.
From Verif.Spec Require Import ExprSpec.
From Verif.Proofs Require Import MapProofs ExprProofs.
Set Implicit Arguments.
Unset Strict Implicit.
Unset Printing Implicit Defensive.
Import GRing.Theory.
Local Open Scope ring_scope.

Section C16.
Variables (V V' : eqType) (R : comRingType).
Implicit Types (e : expr V R).

(** Substituting polynomials of degree at most [n] for the variables gives a polynomial of degree at most
    [n * compute_max_degree e] ([size p = degree + 1]). *)
Theorem C16_substitution e (conv : V -> V') (g : V' -> {poly R}) n :
  degree_fits e -> (forall v, (size (g v) <= n.+1)%N) ->
  (size (evaluate g (convert_expr conv polyC e)) <= (n * N.to_nat (compute_max_degree e)).+1)%N.
Proof. by move=> h hg; rewrite degree_exact //; apply: size_subst. Qed.

(** No monomial of the expanded expression has more than [compute_max_degree e] variables. *)
Theorem C16_total_degree e : degree_fits e -> powers_positive e ->
  all (fun t => size (t_vars t) <= N.to_nat (compute_max_degree e))%N (nlc_convert e).
Proof. by move=> h hp; rewrite degree_exact //; apply: merge_degree; apply: nlc_degree. Qed.

(** The value is the degree computed without overflow. *)
Theorem C16_exact e : degree_fits e -> compute_max_degree e = exact_degree e.
Proof. exact: degree_exact. Qed.
End C16.

(** ** Finding: the computation wraps modulo 2^32
    (x^65536)^65536 has degree 2^32; the visitor answers 0. *)
Theorem C16_wrap_refuted : exists e : expr [eqType of nat] [comRingType of 'F_7],
  compute_max_degree e = N0 /\ exact_degree e = N.pow 2 32.
Proof.
have [k E] : exists k, N.of_nat k = N.pow 2 16 by exists (N.to_nat (N.pow 2 16)); rewrite Nnat.N2Nat.id.
exists (Pow (Pow (expr_var _ 0%N) k) k).
by rewrite /compute_max_degree /exact_degree E.
Qed.

(** (x*y)^2 * (x + 5): degree 5; with polynomials of degree at most 3 for x and y the degree is at most 15. *)
Example C16_witness :
  let F := [fieldType of 'F_17] in
  let e := Bin MULT (Pow (Term (ETerm [:: 0%N; 1%N] (1 : F))) 2) (Bin ADD (expr_var F 0%N) (expr_const _ (5 : F))) in
  [/\ degree_fits e, powers_positive e & compute_max_degree e = N.of_nat 5].
Proof. by split; vm_compute. Qed.

Print Assumptions C16_substitution.
Print Assumptions C16_total_degree.
Print Assumptions C16_exact.
Print Assumptions C16_wrap_refuted.
