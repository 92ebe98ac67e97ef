(** Model of snark/systems/ppzksnark/r1cs_gg_ppzksnark/encrypted_input/{generator,prover,verifier}.hpp
    (proving_mode::encrypted_input). The generator (generator.hpp:57-69) is the basic one with the extended verification key, of
    which the verifier reads the fields of the basic key. Groups and pairing as in Groth16.v. *)
From mathcomp Require Import all_ssreflect all_algebra.
From Verif.Model Require Import Base LinearCombination ConstraintSystems Domain ArithmeticPrograms KnowledgeCommitment Groth16.
Set Implicit Arguments.
Unset Strict Implicit.
Unset Printing Implicit Defensive.
Import GRing.Theory.
Local Open Scope ring_scope.

Section EncryptedInput.
Variables (F : fieldType) (G1 G2 GT : lmodType F).
Variable e : G1 -> G2 -> GT.
(** g2_type::value_type::one() *)
Variable g2_one : G2.

(** The template parameter PublicKey: the members that prover.hpp:73 and verifier.hpp:92-99 read. *)
Record enc_pubkey := EncPubkey {
  epk_delta_s_g1 : seq G1; epk_t_g1 : seq G1; epk_t_g2 : seq G2; epk_gamma_inverse_sum_s_g1 : G1 }.

(** prover.hpp:62-74 [process]; [r0], [s0] are the random draws of the basic prover *)
Definition enc_prover (dom : seq F) (gen : F) (pk : g16_proving_key G1 G2) (pubkey : enc_pubkey) (primary auxiliary : seq F) (r r0 s0 : F)
    : option (g16_proof G1 G2) :=
  obnd (g16_prover dom gen pk primary auxiliary r0 s0) (fun proof =>
  Some (G16Proof (pr_A proof) (pr_B proof) (r *: epk_gamma_inverse_sum_s_g1 pubkey + pr_C proof))).

(** verifier.hpp:98-103, the while loop; the last component: both iterators have reached their ends (assertion of 104) *)
Fixpoint cipher_loop (acc : G1) (sum_cipher : GT) (cts : seq G1) (ts : seq G2) : G1 * GT * bool :=
  match cts, ts with
  | ct :: cts', t :: ts' => cipher_loop (acc + ct) (sum_cipher + e ct t) cts' ts'
  | _, _ => (acc, sum_cipher, nilp cts && nilp ts)
  end.

(** verifier.hpp:79-149 [process]; [ct] is the range first..last. [None]: an assertion (90-94, 104) fails. The subtractions are of
    type size_t. Those of ct_size wrap for ct_size < 2, and then the assertions of 92-94 cannot hold for vectors that fit into memory;
    input_size - 1 wraps for input_size = 0, and then the assertion of 90 holds; i - ct_size + 2 (107) is the difference of i + 2 and
    ct_size also where i - ct_size wraps. *)
Definition enc_verify (ct : seq G1) (vk : g16_verification_key G1 G2 GT) (pubkey : enc_pubkey) (unencrypted : seq F)
    (proof : g16_proof G1 G2) : option bool :=
  let input_size := size (vk_gamma_ABC_rest vk) in
  let ct_size := size ct in
  if [&& 2 <= ct_size, (input_size == 0) || (ct_size - 2 < input_size - 1), size unencrypted + (ct_size - 2) == input_size,
         ct_size - 2 == size (epk_delta_s_g1 pubkey), ct_size - 2 == size (epk_t_g1 pubkey) & (ct_size - 2).+1 == size (epk_t_g2 pubkey)]%N then
    let: (acc, sum_cipher, ended) := cipher_loop (vk_gamma_ABC_first vk) 0 (take (ct_size - 1) ct) (epk_t_g2 pubkey) in
    if ended then
      let acc := foldl (fun acc i => acc + nth 0 unencrypted (i + 2 - ct_size) *: nth 0 (vk_gamma_ABC_rest vk) i) acc
                   (iota (ct_size - 2) (input_size - (ct_size - 2))) in
      let presum_cipher := e (last 0 ct) g2_one in
      let ans1 := sum_cipher == presum_cipher in
      let QAPl := e (pr_A proof) (pr_B proof) in
      let QAPr := vk_alpha_g1_beta_g2 vk + e acc (vk_gamma_g2 vk) + e (pr_C proof) (vk_delta_g2 vk) in
      Some (ans1 && (QAPl == QAPr))
    else None
  else None.
End EncryptedInput.
