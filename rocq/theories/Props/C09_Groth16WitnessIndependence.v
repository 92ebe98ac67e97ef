(** C09: Groth16 proofs do not depend on the witness. *)
From mathcomp Require Import all_ssreflect all_algebra.
From Verif.Model Require Import Base LinearCombination ConstraintSystems Domain ArithmeticPrograms KnowledgeCommitment Groth16.
From Verif.Spec Require Import LinearSpec GroupSpec.
From Verif.Proofs Require Import FieldTac LinearProofs DomainProofs QapProofs KcProofs Groth16Proofs.
From Verif.Props Require Import C02_R1csSemantics C05_R1csToQap C08_Groth16Complete.
Set Implicit Arguments.
Unset Strict Implicit.
Unset Printing Implicit Defensive.
Import GRing.Theory.
Local Open Scope ring_scope.

Section C09.
Variables (F : fieldType) (G1 G2 GT : lmodType F) (e : G1 -> G2 -> GT).
Add Field Ff_c09 : (@ffield_theory F).

(** For two satisfying witnesses of the same primary input there is a bijection of the randomness that turns each
    proof made with the first witness into the identical proof made with the second. So, over uniform randomness,
    both witnesses give the same distribution of proofs. *)
Theorem C09_witness_independent (cs : r1cs F) (dom : seq F) (gen t alpha beta gamma delta : F) (g1 : G1) (g2 : G2)
    (chunks : nat) :
  r1cs_wf cs -> uniq dom -> (r_num_constraints cs + r_num_inputs cs + 1 <= size dom)%N ->
  gen != 0 -> (forall x, x \in dom -> gen * x \notin dom) ->
  gamma != 0 -> delta != 0 ->
  exists pk vk, g16_generator e dom cs t alpha beta gamma delta g1 g2 chunks = Some (pk, vk) /\
  forall primary aux1 aux2,
    size primary = r_num_inputs cs ->
    (size primary + size aux1)%N = r_num_variables cs -> (size primary + size aux2)%N = r_num_variables cs ->
    r_is_satisfied cs primary aux1 = Some true -> r_is_satisfied cs primary aux2 = Some true ->
    exists2 f : F * F -> F * F, bijective f &
      forall rs, exists2 pr, g16_prover dom gen pk primary aux1 rs.1 rs.2 = Some pr &
                             g16_prover dom gen pk primary aux2 (f rs).1 (f rs).2 = Some pr.
Proof.
move=> wf udom ldom gen0 genz gamma0 delta0.
have [pk [vk [q [eg _ hp]]]] := g16_closed e wf udom ldom t alpha beta gamma g1 g2 chunks delta0 gen0 genz.
exists pk, vk; split=> // primary aux1 aux2 sp sz1 sz2 sat1 sat2.
pose a x := part (qe_At q) (primary ++ x) 0 (r_num_variables cs).+1.
pose b x := part (qe_Bt q) (primary ++ x) 0 (r_num_variables cs).+1.
pose sh x y (rs : F * F) := (rs.1 + (a x - a y) / delta, rs.2 + (b x - b y) / delta).
exists (sh aux1 aux2).
  by exists (sh aux2 aux1) => -[r s]; rewrite /sh /=; congr (_, _);
    [move: (a aux1) (a aux2) | move: (b aux1) (b aux2)| move: (a aux1) (a aux2) | move: (b aux1) (b aux2)] => u v; ffield F.
move=> [r s] /=; rewrite (hp _ _ _ _ sp sz1 sat1) (hp _ _ _ _ sp sz2 sat2); eexists; first by reflexivity.
have -> : ICval alpha beta q (primary ++ aux2) (r_num_inputs cs).+1 = ICval alpha beta q (primary ++ aux1) (r_num_inputs cs).+1.
  apply: eq_big_nat => -[|i] //=; rewrite ltnS => hi; by rewrite !nth_cat sp hi.
rewrite -/(a aux1) -/(a aux2) -/(b aux1) -/(b aux2).
have -> : alpha + a aux2 + (r + (a aux1 - a aux2) / delta) * delta = alpha + a aux1 + r * delta.
  by move: (a _) (a _) => u v; ffield F.
have -> // : beta + b aux2 + (s + (b aux1 - b aux2) / delta) * delta = beta + b aux1 + s * delta.
by move: (b _) (b _) => u v; ffield F.
Qed.

(** Whatever the key, two accepted proofs for the same input with the same A and B are equal (delta_g2 non-zero,
    pairing non-degenerate): C carries no further information. *)
Theorem C09_C_determined (vk : g16_verification_key G1 G2 GT) (input : seq F) (A : G1) (B : G2) (C C' : G1) :
  bilinear e -> nondegenerate_left e -> vk_delta_g2 vk != 0 ->
  g16_verify_strong e vk input (G16Proof A B C) = Some true -> g16_verify_strong e vk input (G16Proof A B C') = Some true ->
  C = C'.
Proof.
move=> be nd d0; rewrite /g16_verify_strong /g16_verify_strong_online /g16_verify_weak_online /=.
case: eqP => //= ->; rewrite leqnn.
case: eqP => // h1 _; case: eqP => // h2 _; apply/eqP; rewrite -subr_eq0; apply/eqP; apply: (nd _ _ d0).
have -> : C - C' = C + (-1) *: C' by rewrite scaleN1r.
rewrite (e_addl be) (e_scalel be) scaleN1r.
move/eqP: h1; rewrite -{}h2 (inj_eq (addrI _)) eqr_opp (inj_eq (addrI _)) => /eqP->; exact: subrr.
Qed.
End C09.

(** Non-vacuity: x1 = x2 * x3 has several witnesses for x1 = 6 over F_17; with delta = 1 and the randomness shifted by
    the difference of the QAP evaluations the two proofs coincide. *)
Definition C09_sys : r1cs C05_F := R1cs 1 2 [:: R1csConstraint (lc_var _ 2) (lc_var _ 3) (lc_var _ 1)].
Definition C09_proof (aux : seq C05_F) (r s : C05_F) :=
  obnd (g16_generator C08_e C05_dom C09_sys 5%:R 6%:R 7%:R 8%:R 9%:R (1 : C05_F) (3%:R : C05_F) 2) (fun k =>
  omap (fun pr : g16_proof C08_V C08_V => (pr_A pr : C05_F, pr_B pr : C05_F, pr_C pr : C05_F)) (g16_prover C05_dom 3%:R k.1 [:: 6%:R] aux r s)).
Example C09_witness :
  r1cs_wf C09_sys /\ r_is_satisfied C09_sys [:: 6%:R] [:: 2%:R; 3%:R] = Some true
  /\ r_is_satisfied C09_sys [:: 6%:R] [:: 3%:R; 2%:R] = Some true
  /\ has (fun r => has (fun s => C09_proof [:: 2%:R; 3%:R] 4%:R 11%:R == C09_proof [:: 3%:R; 2%:R] r%:R s%:R) (iota 0 17)) (iota 0 17)
  /\ C09_proof [:: 2%:R; 3%:R] 4%:R 11%:R != C09_proof [:: 3%:R; 2%:R] 4%:R 11%:R.
Proof.
split; first by move=> k; rewrite inE => /eqP->; split => t; rewrite !inE => /eqP->.
by vm_decide.
Qed.

Print Assumptions C09_witness_independent.
Print Assumptions C09_C_determined.
