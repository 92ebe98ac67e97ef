(** C14: expression operators preserve meaning. *)
From mathcomp Require Import all_ssreflect all_algebra.
From Verif.Model Require Import Base HashMap Expression PlonkVariable.
From Verif.Spec Require Import ExprSpec.
From Verif.Proofs Require Import MapProofs ExprProofs.
Set Implicit Arguments.
Unset Strict Implicit.
Unset Printing Implicit Defensive.
Import GRing.Theory.
Local Open Scope ring_scope.

Section C14.
Variables (V : eqType) (R : comRingType) (g : V -> R).
Implicit Types (a b e : expr V R) (t u : eterm V R) (v w : V) (c : R).
Notation "[[ e ]]" := (evaluate g e) (at level 0, e at level 200).

(** The leaves: a variable denotes its value, a number itself, a term its coefficient times the product of its
    variables; the default-constructed expression and term denote zero. *)
Theorem C14_leaves v c t :
  [/\ [[expr_var R v]] = g v, [[expr_const V c]] = c, [[Term t]] = t_coeff t * \prod_(w <- t_vars t) g w,
      [[expr_nil]] = 0 & [[Term term_nil]] = 0].
Proof. by split; rewrite /= ?eval_termE /= ?big_seq1 ?big_nil ?mul1r ?mulr1 ?mul0r. Qed.

(** [a + b], [a - b], [a * b], [-a], [a.pow(n)] *)
Theorem C14_operators a b n :
  [/\ [[e_add a b]] = [[a]] + [[b]], [[e_sub a b]] = [[a]] - [[b]], [[e_mul a b]] = [[a]] * [[b]],
      [[e_opp a]] = - [[a]] & [[e_pow a n]] = [[a]] ^+ n].
Proof. by split; rewrite ?e_add_val ?e_mul_val //= eval_termE mul0r sub0r. Qed.

(** [a += b], [a -= b], [a *= b] *)
Theorem C14_assignments a b :
  [/\ [[e_add_assign a b]] = [[a]] + [[b]], [[e_sub_assign a b]] = [[a]] - [[b]] & [[e_mul_assign a b]] = [[a]] * [[b]]].
Proof. by split; [exact: e_add_assign_val | | exact: e_mul_val]. Qed.

(** the operators of terms *)
Theorem C14_terms t u :
  [/\ [[Term (term_mul t u)]] = [[Term t]] * [[Term u]], [[term_add t u]] = [[Term t]] + [[Term u]],
      [[term_sub t u]] = [[Term t]] - [[Term u]] & [[Term (eterm_opp t)]] = - [[Term t]]].
Proof. by split; rewrite /term_add ?e_add_val //= ?term_mul_val // !eval_termE mulNr. Qed.

(** the operators of PLONK variables and of numbers on the left *)
Theorem C14_variables v w c e :
  [/\ [[Term (pv_mul_const v c)]] = g v * c, [[Term (pv_mul_var R v w)]] = g v * g w, [[pv_add v e]] = g v + [[e]],
      [[pv_sub v e]] = g v - [[e]] & [[Term (pv_opp R v)]] = - g v].
Proof.
by split; rewrite /pv_add /pv_sub ?e_add_assign_val /= ?term_mul_val ?eval_termE /= ?big_seq1 ?big_nil ?mul1r ?mulr1 // mulNr mul1r.
Qed.
Theorem C14_constants v c : [[const_add_pv c v]] = c + g v /\ [[const_sub_pv c v]] = c - g v.
Proof.
rewrite /const_add_pv /const_sub_pv /pv_add /= e_add_assign_val /= !eval_termE /= big_seq1 !big_nil !mul1r !mulr1.
by rewrite sub0r opprB addrC.
Qed.
End C14.

(** Changing the coefficient type through a ring morphism (for instance numbers to constant polynomials) commutes with
    evaluation. *)
Theorem C14_convert (V V' : eqType) (R R' : comRingType) (f : {rmorphism R -> R'}) (conv : V -> V') (g : V -> R) (g' : V' -> R') :
  (forall v, g' (conv v) = f (g v)) -> forall e : expr V R, evaluate g' (convert_expr conv f e) = f (evaluate g e).
Proof. exact: convert_val. Qed.

(** (2x + 0) * (x - 3) + (-(x*y))^2 at x = 5, y = 4 modulo 17: the short cut for [+ 0] is taken. *)
Example C14_witness :
  let F := [fieldType of 'F_17] in
  let g := fun v : nat => if v == 0%N then (5 : F) else 4 in
  let x := expr_var F 0%N in
  let e := e_add (e_mul (e_add (Term (pv_mul_const 0%N (2 : F))) expr_nil) (e_sub x (expr_const _ (3 : F))))
                 (e_pow (e_opp (Term (pv_mul_var F 0%N 1%N))) 2) in
  evaluate g e = (2 * 5) * (5 - 3) + 20 ^+ 2 /\ evaluate g e = 12.
Proof. by vm_decide. Qed.

Print Assumptions C14_leaves.
Print Assumptions C14_operators.
Print Assumptions C14_assignments.
Print Assumptions C14_terms.
Print Assumptions C14_variables.
Print Assumptions C14_constants.
Print Assumptions C14_convert.
