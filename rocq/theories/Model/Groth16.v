(** Model of snark/systems/ppzksnark/r1cs_gg_ppzksnark/{generator,prover,verifier,proof,verification_key,proving_key}.hpp
    (proving_mode::basic). The groups G1, G2, GT are modules over the scalar field, written additively (GT too:
    products of pairings are sums, [unitary_inversed] is the opposite); [e] is the reduced pairing
    (final exponentiation of the Miller loop). [dom] and [gen] are the evaluation domain and coset generator used by
    r1cs_to_qap. Random draws are arguments. *)
From mathcomp Require Import all_ssreflect all_algebra.
From Verif.Model Require Import Base LinearCombination ConstraintSystems Domain ArithmeticPrograms KnowledgeCommitment.
Set Implicit Arguments.
Unset Strict Implicit.
Unset Printing Implicit Defensive.
Import GRing.Theory.
Local Open Scope ring_scope.

Section Groth16.
Variables (F : fieldType) (G1 G2 GT : lmodType F).
Variable e : G1 -> G2 -> GT.

(** proving_key.hpp:40-70 *)
Record g16_proving_key := G16ProvingKey {
  pk_alpha_g1 : G1; pk_beta_g1 : G1; pk_beta_g2 : G2; pk_delta_g1 : G1; pk_delta_g2 : G2;
  pk_A_query : seq G1; pk_B_query : kc_vector G2 G1; pk_H_query : seq G1; pk_L_query : seq G1;
  pk_constraint_system : r1cs F }.

(** verification_key.hpp:44-62; the accumulation_vector is its [first] element and the [rest] vector *)
Record g16_verification_key := G16VerificationKey {
  vk_alpha_g1_beta_g2 : GT; vk_gamma_g2 : G2; vk_delta_g2 : G2; vk_gamma_ABC_first : G1; vk_gamma_ABC_rest : seq G1 }.

(** proof.hpp:40-62 *)
Record g16_proof := G16Proof { pr_A : G1; pr_B : G2; pr_C : G1 }.

(** algebra::batch_exp (crypto3-algebra): every scalar times the base of the table *)
Definition batch_exp (V : lmodType F) (b : V) (v : seq F) : seq V := [seq x *: b | x <- v].
(** algebra::batch_exp_with_coeff *)
Definition batch_exp_with_coeff (V : lmodType F) (b : V) (coeff : F) (v : seq F) : seq V :=
  [seq (coeff * x) *: b | x <- v].

(** generator.hpp:130-150 [beta * At[i] + alpha * Bt[i] + Ct[i]] *)
Definition abc_at (alpha beta : F) (q : qap_eval F) (i : nat) : F :=
  beta * nth 0 (qe_At q) i + alpha * nth 0 (qe_Bt q) i + nth 0 (qe_Ct q) i.

(** generator.hpp:86-236 [basic_process] with the random draws as arguments (= 240-390
    [deterministic_basic_process]). At, Bt, Ct have num_variables + 1 entries by construction. [chunks] is
    omp_get_max_threads() or 1. *)
Definition g16_generator (dom : seq F) (cs : r1cs F) (t alpha beta gamma delta : F) (g1 : G1) (g2 : G2) (chunks : nat)
    : option (g16_proving_key * g16_verification_key) :=
  let r1cs_copy := swap_AB_if_beneficial cs in
  let gamma_inverse := gamma^-1 in
  let delta_inverse := delta^-1 in
  obnd (qap_instance_map_with_evaluation dom r1cs_copy t) (fun q =>
  let gamma_ABC_0 := abc_at alpha beta q 0 * gamma_inverse in
  let gamma_ABC := [seq abc_at alpha beta q i * gamma_inverse | i <- iota 1 (qe_num_inputs q)] in
  let Lt := [seq abc_at alpha beta q ((qe_num_inputs q).+1 + i)%N * delta_inverse
            | i <- iota 0 (qe_num_variables q - qe_num_inputs q)] in
  let Ht := take (size (qe_Ht q) - 2) (qe_Ht q) in
  obnd (kc_batch_exp g2 g1 1 1 (qe_Bt q) chunks) (fun B_query =>
  Some (G16ProvingKey (alpha *: g1) (beta *: g1) (beta *: g2) (delta *: g1) (delta *: g2)
          (batch_exp g1 (qe_At q)) B_query
          (batch_exp_with_coeff g1 (qe_Zt q * delta_inverse) Ht) (batch_exp g1 Lt) r1cs_copy,
        G16VerificationKey (e (alpha *: g1) (beta *: g2)) (gamma *: g2) (delta *: g2)
          (gamma_ABC_0 *: g1) (batch_exp g1 gamma_ABC)))).

(** prover.hpp:73-158 [process]; [r], [s] are the random draws of 92-93. The asserts of 77, 87-88 are
    preconditions. *)
Definition g16_prover (dom : seq F) (gen : F) (pk : g16_proving_key) (primary auxiliary : seq F) (r s : F)
    : option g16_proof :=
  obnd (qap_witness_map dom gen (pk_constraint_system pk) primary auxiliary 0 0 0) (fun w =>
  let padded := 1 :: qw_ABCs w in
  let nv1 := (qw_num_variables w).+1 in
  let evaluation_At := multiexp (take nv1 (pk_A_query pk)) (take nv1 padded) in
  obnd (kc_multiexp_with_mixed_addition (pk_B_query pk) 0 nv1 (take nv1 padded)) (fun evaluation_Bt =>
  let evaluation_Ht := multiexp (take (qw_degree w - 1) (pk_H_query pk)) (take (qw_degree w - 1) (qw_H w)) in
  let evaluation_Lt := multiexp (pk_L_query pk)
     (take (qw_num_variables w - qw_num_inputs w) (drop (qw_num_inputs w).+1 padded)) in
  let g1_A := pk_alpha_g1 pk + evaluation_At + r *: pk_delta_g1 pk in
  let g1_B := pk_beta_g1 pk + evaluation_Bt.2 + s *: pk_delta_g1 pk in
  let g2_B := pk_beta_g2 pk + evaluation_Bt.1 + s *: pk_delta_g2 pk in
  let g1_C := evaluation_Ht + evaluation_Lt + s *: g1_A + r *: g1_B - (r * s) *: pk_delta_g1 pk in
  Some (G16Proof g1_A g2_B g1_C))).

(** verification_key.hpp:102-117 and verifier.hpp:81-101: the processed key; [precompute_g2] prepares the operand of
    the Miller loop and is modelled as the identity. *)
Record g16_processed_key := G16ProcessedKey {
  pvk_alpha_g1_beta_g2 : GT; pvk_gamma_g2 : G2; pvk_delta_g2 : G2; pvk_ABC_first : G1; pvk_ABC_rest : seq G1 }.
Definition process_verification_key (vk : g16_verification_key) : g16_processed_key :=
  G16ProcessedKey (vk_alpha_g1_beta_g2 vk) (vk_gamma_g2 vk) (vk_delta_g2 vk) (vk_gamma_ABC_first vk) (vk_gamma_ABC_rest vk).

(** container::accumulation_vector::accumulate_chunk(begin, end, 0).first: [first + sum input_i * rest_i] *)
Definition accumulate_chunk (first : G1) (rest : seq G1) (input : seq F) : G1 :=
  first + multiexp (take (size input) rest) input.

(** verifier.hpp:143-187 the weak-input-consistency verifier on a processed key; [None]: the assertion of 148 fails
    (a precondition in release builds). A proof of the model is made of group elements, so [is_well_formed] holds. *)
Definition g16_verify_weak_online (pvk : g16_processed_key) (input : seq F) (pr : g16_proof) : option bool :=
  if (size input <= size (pvk_ABC_rest pvk))%N then
    let acc := accumulate_chunk (pvk_ABC_first pvk) (pvk_ABC_rest pvk) input in
    let QAP1 := e (pr_A pr) (pr_B pr) in
    let QAP2 := e acc (pvk_gamma_g2 pvk) + e (pr_C pr) (pvk_delta_g2 pvk) in
    let QAP := QAP1 - QAP2 in
    Some (if QAP != pvk_alpha_g1_beta_g2 pvk then false else true)
  else None.

(** verifier.hpp:131-136 *)
Definition g16_verify_weak (vk : g16_verification_key) (input : seq F) (pr : g16_proof) : option bool :=
  g16_verify_weak_online (process_verification_key vk) input pr.

(** verifier.hpp:217-230 the strong-input-consistency verifier on a processed key *)
Definition g16_verify_strong_online (pvk : g16_processed_key) (input : seq F) (pr : g16_proof) : option bool :=
  if size (pvk_ABC_rest pvk) != size input then Some false else g16_verify_weak_online pvk input pr.

(** verifier.hpp:204-210 *)
Definition g16_verify_strong (vk : g16_verification_key) (input : seq F) (pr : g16_proof) : option bool :=
  g16_verify_strong_online (process_verification_key vk) input pr.

End Groth16.
