(** C08: Groth16 completeness. *)
From mathcomp Require Import all_ssreflect all_algebra.
From Verif.Model Require Import Base LinearCombination ConstraintSystems Domain ArithmeticPrograms KnowledgeCommitment Groth16.
From Verif.Spec Require Import LinearSpec GroupSpec.
From Verif.Proofs Require Import FieldTac LinearProofs DomainProofs QapProofs KcProofs Groth16Proofs.
From Verif.Props Require Import C02_R1csSemantics C05_R1csToQap.
Set Implicit Arguments.
Unset Strict Implicit.
Unset Printing Implicit Defensive.
Import GRing.Theory.
Local Open Scope ring_scope.

Section C08.
Variables (F : fieldType) (G1 G2 GT : lmodType F) (e : G1 -> G2 -> GT).
Hypothesis be : bilinear e.
Add Field Ff_c08 : (@ffield_theory F).

(** For every well-formed system, every evaluation domain with distinct points that is large enough, every coset
    avoiding it, every trapdoor with gamma, delta non-zero, all group generators and every number of worker chunks,
    key generation succeeds; and for every satisfying assignment and all randomness the prover succeeds and
    the strong verifier accepts its proof. *)
Theorem C08_complete (cs : r1cs F) (dom : seq F) (gen t alpha beta gamma delta : F) (g1 : G1) (g2 : G2) (chunks : nat) :
  r1cs_wf cs -> uniq dom -> (r_num_constraints cs + r_num_inputs cs + 1 <= size dom)%N ->
  gen != 0 -> (forall x, x \in dom -> gen * x \notin dom) ->
  gamma != 0 -> delta != 0 ->
  exists pk vk, g16_generator e dom cs t alpha beta gamma delta g1 g2 chunks = Some (pk, vk) /\
  forall primary auxiliary r s,
    size primary = r_num_inputs cs -> (size primary + size auxiliary)%N = r_num_variables cs ->
    r_is_satisfied cs primary auxiliary = Some true ->
    exists2 pr, g16_prover dom gen pk primary auxiliary r s = Some pr & g16_verify_strong e vk primary pr = Some true.
Proof.
move=> wf udom ldom gen0 genz gamma0 delta0.
have [pk [vk [q [eg [v1 v2 v3 v4 v5] hp]]]] :=
  g16_closed e wf udom ldom t alpha beta gamma g1 g2 chunks delta0 gen0 genz.
exists pk, vk; split=> // primary auxiliary r s sp sz sat; have := hp _ _ r s sp sz sat; cbv zeta.
set x := primary ++ auxiliary; set A := (alpha + _ + _); set B := (beta + _ + _) => ->.
eexists; first by reflexivity.
rewrite /g16_verify_strong /g16_verify_strong_online /g16_verify_weak_online /= v5 size_map size_iota sp eqxx leqnn /=.
rewrite v1 v2 v3 v4 (accumulate_IC _ _ _ _ _ auxiliary sp) -/x.
rewrite !(e_scalel be) !(e_scaler be) !scalerA -!scalerDl -scalerBl.
set u := (_ - _ : F); suff -> : u = alpha * beta by rewrite eqxx.
rewrite /u {u}; clearbody A B; move: (ICval _ _ _ _ _) => I; ffield F.
Qed.
End C08.

(** Non-vacuity: the system of C05 over F_17, groups = the field itself, pairing = multiplication, including the
    rejection of a proof for a wrong input. *)
Definition C08_V := GRing.regular_lmodType C05_F.
Definition C08_e (x y : C08_V) : C08_V := (x : C05_F) * y.
Definition C08_run (primary claimed aux : seq C05_F) : option bool :=
  obnd (g16_generator C08_e C05_dom C05_sys 5%:R 6%:R 7%:R 8%:R 9%:R (1 : C05_F) (3%:R : C05_F) 2) (fun k =>
  obnd (g16_prover C05_dom 3%:R k.1 primary aux 4%:R 11%:R) (fun pr => g16_verify_strong C08_e k.2 claimed pr)).
Lemma C08_e_bilinear : bilinear C08_e.
Proof.
split=> [x x' y|x y y'|c x y|c x y]; rewrite /C08_e.
- exact: mulrDl.
- exact: mulrDr.
- exact: esym (mulrA (c : C05_F) x y).
- exact: mulrCA (x : C05_F) c y.
Qed.
Example C08_witness :
  C08_run [:: 2%:R] [:: 2%:R] [:: 3%:R; 6%:R] = Some true /\ C08_run [:: 2%:R] [:: 3%:R] [:: 3%:R; 6%:R] = Some false.
Proof. by vm_decide. Qed.

Print Assumptions C08_complete.
