(** Model of snark/systems/ppzksnark/uscs_ppzksnark/{generator,prover,verifier,proof,verification_key,proving_key}.hpp.
    Groups, pairing and random draws as in the model of Groth16; [dom] and [gen] are the evaluation domain and coset
    generator used by uscs_to_ssp. *)
From mathcomp Require Import all_ssreflect all_algebra.
From Verif.Model Require Import Base LinearCombination ConstraintSystems Domain ArithmeticPrograms KnowledgeCommitment Groth16 OrderedMap.
Set Implicit Arguments.
Unset Strict Implicit.
Unset Printing Implicit Defensive.
Import GRing.Theory.
Local Open Scope ring_scope.

Section Uscs.
Variables (F : fieldType) (G1 G2 GT : lmodType F).
Variable e : G1 -> G2 -> GT.

(** proving_key.hpp:38-70 *)
Record uscs_proving_key := UscsProvingKey {
  uk_V_g1_query : seq G1; uk_alpha_V_g1_query : seq G1; uk_H_g1_query : seq G1; uk_V_g2_query : seq G2;
  uk_constraint_system : uscs F }.

(** verification_key.hpp:40-60 *)
Record uscs_verification_key := UscsVerificationKey {
  uv_tilde_g2 : G2; uv_alpha_tilde_g2 : G2; uv_Z_g2 : G2; uv_IC_first : G1; uv_IC_rest : seq G1 }.

(** proof.hpp:40-70 *)
Record uscs_proof := UscsProof { up_V_g1 : G1; up_alpha_V_g1 : G1; up_H_g1 : G1; up_V_g2 : G2 }.

(** generator.hpp:68-176 [process]; [t], [alpha], [tilde] are the draws of 72, 105, 146. [None]: assertions
    are compiled in ([asserts]) and the one of 102 fails; the size assertions of 97-100 hold by construction of the SSP. *)
Definition uscs_generator (asserts : bool) (dom : seq F) (cs : uscs F) (t alpha tilde : F) (g1 : G1) (g2 : G2)
    : option (uscs_proving_key * uscs_verification_key) :=
  obnd (ssp_instance_map_with_evaluation dom cs t) (fun q =>
  let ni := pe_num_inputs q in
  let Vt := rcons (pe_Vt q) (pe_Zt q) in
  let Xt := take ni.+1 Vt in
  let Vt_minus_Xt := drop ni.+1 Vt in
  oguard asserts ==> all (fun c => c != 0) Xt;
  Some (UscsProvingKey (batch_exp g1 Vt_minus_Xt) (batch_exp_with_coeff g1 alpha Vt_minus_Xt)
          (batch_exp g1 (pe_Ht q)) (batch_exp g2 Vt) cs,
        UscsVerificationKey (tilde *: g2) ((alpha * tilde) *: g2) (pe_Zt q *: g2)
          (head 0 Xt *: g1) (batch_exp g1 (behead Xt)))).

(** prover.hpp:69-136 [process]; [d] is the draw of 73. Reading the last element of an empty query is [None]. *)
Definition uscs_prover (dom : seq F) (gen : F) (pk : uscs_proving_key) (primary auxiliary : seq F) (d : F)
    : option uscs_proof :=
  obnd (ssp_witness_map dom gen (uk_constraint_system pk) primary auxiliary d) (fun w =>
  let nv := pw_num_variables w in
  let ni := pw_num_inputs w in
  let V1 := uk_V_g1_query pk in
  let aV1 := uk_alpha_V_g1_query pk in
  let V2 := uk_V_g2_query pk in
  obnd (vget V1 (size V1 - 1)) (fun V1_last =>
  obnd (vget aV1 (size aV1 - 1)) (fun aV1_last =>
  obnd (vget V2 0) (fun V2_first =>
  obnd (vget V2 (size V2 - 1)) (fun V2_last =>
  let x_aux := take (nv - ni) (drop ni (pw_Vs w)) in
  Some (UscsProof (pw_d w *: V1_last + multiexp (take (nv - ni) V1) x_aux)
                  (pw_d w *: aV1_last + multiexp (take (nv - ni) aV1) x_aux)
                  (0 + multiexp (take (pw_degree w).+1 (uk_H_g1_query pk)) (take (pw_degree w).+1 (pw_H w)))
                  (V2_first + pw_d w *: V2_last + multiexp (take nv (drop 1 V2)) (take nv (pw_Vs w))))))))).

(** verifier.hpp:122-183 the weak-input-consistency verifier, with the key processed as in 73-89 ([g1], [g2]: the
    generators). [None]: the assertion of 126 fails. *)
Definition uscs_verify_weak (g1 : G1) (g2 : G2) (vk : uscs_verification_key) (input : seq F) (pr : uscs_proof)
    : option bool :=
  oguard (size input <= size (uv_IC_rest vk))%N;
  let acc := accumulate_chunk (uv_IC_first vk) (uv_IC_rest vk) input in
  let V := e (up_V_g1 pr + acc) g2 - e g1 (up_V_g2 pr) in
  let SSP := - e (up_V_g1 pr + acc) (up_V_g2 pr) + e (up_H_g1 pr) (uv_Z_g2 vk) + e g1 g2 in
  let alpha_V := e (up_V_g1 pr) (uv_alpha_tilde_g2 vk) - e (up_alpha_V_g1 pr) (uv_tilde_g2 vk) in
  Some [&& V == 0, SSP == 0 & alpha_V == 0].

(** verifier.hpp:213-227 the strong-input-consistency verifier *)
Definition uscs_verify_strong (g1 : G1) (g2 : G2) (vk : uscs_verification_key) (input : seq F) (pr : uscs_proof)
    : option bool :=
  if size (uv_IC_rest vk) != size input then Some false else uscs_verify_weak g1 g2 vk input pr.

End Uscs.
