(** C02: R1CS/USCS [is_satisfied] is exactly the constraint semantics; swapping A and B is invisible. *)
From mathcomp Require Import all_ssreflect all_algebra.
From Verif.Model Require Import Base LinearCombination ConstraintSystems.
From Verif.Spec Require Import LinearSpec.
From Verif.Proofs Require Import LinearProofs.
Set Implicit Arguments.
Unset Strict Implicit.
Unset Printing Implicit Defensive.
Import GRing.Theory.
Local Open Scope ring_scope.

Section C02.
Variable F : fieldType.

(** Every variable mentioned by the system exists. *)
Definition r1cs_wf (cs : r1cs F) : Prop :=
  forall k, k \in r_constraints cs ->
    [/\ vars_in (ra k) (r_num_variables cs), vars_in (rb k) (r_num_variables cs)
      & vars_in (rc k) (r_num_variables cs)].

Definition uscs_wf (cs : uscs F) : Prop :=
  forall l, l \in u_constraints cs -> vars_in l (u_num_variables cs).

Theorem C02_r1cs_is_satisfied (cs : r1cs F) (primary auxiliary : seq F) :
  r1cs_wf cs -> size primary = r_num_inputs cs ->
  (size primary + size auxiliary)%N = r_num_variables cs ->
  exists b, r_is_satisfied cs primary auxiliary = Some b /\
    (b <-> forall k, k \in r_constraints cs ->
       denote (ra k) (primary ++ auxiliary) * denote (rb k) (primary ++ auxiliary)
       = denote (rc k) (primary ++ auxiliary)).
Proof.
move=> wf _ sz; apply: r1cs_loopP => k kcs.
by rewrite size_cat sz; apply: wf.
Qed.

Theorem C02_uscs_is_satisfied (cs : uscs F) (primary auxiliary : seq F) :
  uscs_wf cs -> size primary = u_num_inputs cs ->
  (size primary + size auxiliary)%N = u_num_variables cs ->
  exists b, u_is_satisfied cs primary auxiliary = Some b /\
    (b <-> forall l, l \in u_constraints cs -> denote l (primary ++ auxiliary) ^+ 2 = 1).
Proof.
move=> wf _ sz; apply: uscs_loopP => k kcs.
by rewrite size_cat sz; apply: wf.
Qed.

(** [swap_AB_if_beneficial] keeps sizes, constraint count and well-formedness, and
    [is_satisfied] returns the same answer on every assignment. *)
Theorem C02_swap_AB (cs : r1cs F) (primary auxiliary : seq F) :
  r1cs_wf cs -> (size primary + size auxiliary)%N = r_num_variables cs ->
  [/\ r_num_inputs (swap_AB_if_beneficial cs) = r_num_inputs cs,
      r_num_variables (swap_AB_if_beneficial cs) = r_num_variables cs,
      r_num_constraints (swap_AB_if_beneficial cs) = r_num_constraints cs,
      r1cs_wf (swap_AB_if_beneficial cs)
    & r_is_satisfied (swap_AB_if_beneficial cs) primary auxiliary = r_is_satisfied cs primary auxiliary].
Proof.
move=> wf sz; rewrite /swap_AB_if_beneficial; case: ifP => _; split => //.
- by rewrite /r_num_constraints /= size_map.
- by move=> k /mapP[k' /wf [h1 h2 h3] ->]; split.
rewrite /r_is_satisfied /=.
have {}wf : forall k, k \in r_constraints cs ->
    [/\ vars_in (ra k) (size (primary ++ auxiliary)), vars_in (rb k) (size (primary ++ auxiliary))
      & vars_in (rc k) (size (primary ++ auxiliary))] by move=> k /wf; rewrite size_cat sz.
elim: (r_constraints cs) wf => [|k l IH] //= wf.
have [h1 h2 h3] := wf k (mem_head _ _).
rewrite (lc_evaluate_some h1) (lc_evaluate_some h2) (lc_evaluate_some h3) /= mulrC.
by rewrite IH // => k' kl; apply: wf; rewrite in_cons kl orbT.
Qed.

End C02.

(** Finding: [r1cs_constraint_system::is_valid] compares indices with [num_variables()] although index 0 is the
    constant, so a well-formed system that uses its last variable is reported invalid. *)
Theorem C02_is_valid_last_variable_refuted (F : fieldType) :
  exists cs : r1cs F, r1cs_wf cs /\ (exists x, r_is_satisfied cs x [::] = Some true)
    /\ r_is_valid cs = Some false.
Proof.
exists (R1cs 1 0 [:: R1csConstraint (lc_var F 1) (lc_var F 1) (lc_var F 1)]); split.
  by move=> k; rewrite inE => /eqP->; split => t; rewrite inE => /eqP->.
split; last by [].
by exists [:: 1]; rewrite /r_is_satisfied /= !add0r !mulr1 eqxx.
Qed.

(** Non-vacuity: x1 * x2 = x3, over F_7, satisfied by (2; 3, 6), violated by (2; 3, 5); B touches more variables
    in the second system, so the swap does happen there. *)
Definition C02_sys : r1cs [fieldType of 'F_7] :=
  R1cs 1 2 [:: R1csConstraint (lc_var _ 1) [:: (2%N, 1); (3%N, 0)] (lc_var _ 3)].
Example C02_witness :
  r1cs_wf C02_sys /\
  r_is_satisfied C02_sys [:: 2%:R] [:: 3%:R; 6%:R] = Some true /\
  r_is_satisfied C02_sys [:: 2%:R] [:: 3%:R; 5%:R] = Some false /\
  r_constraints (swap_AB_if_beneficial C02_sys)
    = [:: R1csConstraint [:: (2%N, 1); (3%N, 0)] (lc_var _ 1) (lc_var _ 3)].
Proof.
split; first by move=> k; rewrite inE => /eqP->; split => t; rewrite !inE;
  [move=> /eqP-> | case/orP => /eqP-> | move=> /eqP->].
by vm_decide.
Qed.

Print Assumptions C02_r1cs_is_satisfied.
Print Assumptions C02_uscs_is_satisfied.
Print Assumptions C02_swap_AB.
Print Assumptions C02_is_valid_last_variable_refuted.
