(** Model of commitments/polynomial/r1cs_gg_ppzksnark_mpc.hpp and
    commitments/detail/polynomial/r1cs_gg_ppzksnark_mpc/{crs_operations,private_key,public_key}.hpp: the second phase
    of the Groth16 ceremony. Conventions are those of PowersOfTau.v; the private key is its only member [delta]. *)
From mathcomp Require Import all_ssreflect all_algebra.
From Verif.Model Require Import Base LinearCombination ConstraintSystems Domain ArithmeticPrograms KnowledgeCommitment
  Groth16 PowersOfTau.
Set Implicit Arguments.
Unset Strict Implicit.
Unset Printing Implicit Defensive.
Import GRing.Theory.
Local Open Scope ring_scope.

Section Mpc.
Variables (F : fieldType) (G1 G2 GT : lmodType F).
Variable e : G1 -> G2 -> GT.
Variables (g1 : G1) (g2 : G2).

Definition g16_keypair := (g16_proving_key G1 G2 * g16_verification_key G1 G2 GT)%type.

(** crs_operations.hpp:59-72 one of the loops [acc = acc + coeff * base[lag]] over a map; [None]: lag out of range *)
Definition lag_sum (V : lmodType F) (base : seq V) (acc : V) (mp : seq (nat * F)) : option V :=
  ofold (fun acc (el : nat * F) => obnd (vget base el.1) (fun x => Some (acc + el.2 *: x))) acc mp.

(** crs_operations.hpp:58-73 the body of the loop over variables: (a_g1[i], b_kc[i], beta_a_alpha_b_c[i]). The two
    components of [coeff * kc_value_type(coeffs_g2[lag], coeffs_g1[lag])] are accumulated separately. *)
Definition mpc_entry (r : tau_result G1 G2) (A B C : seq (nat * F)) : option (G1 * (G2 * G1) * G1) :=
  obnd (lag_sum (tr_coeffs_g1 r) 0 A) (fun a =>
  obnd (lag_sum (tr_beta_coeffs_g1 r) 0 A) (fun x1 =>
  obnd (lag_sum (tr_coeffs_g2 r) 0 B) (fun b2 =>
  obnd (lag_sum (tr_coeffs_g1 r) 0 B) (fun b1 =>
  obnd (lag_sum (tr_alpha_coeffs_g1 r) x1 B) (fun x2 =>
  obnd (lag_sum (tr_coeffs_g1 r) x2 C) (fun x3 => Some (a, (b2, b1), x3))))))).

(** crs_operations.hpp:24-111 [make_r1cs_gg_ppzksnark_keypair_from_powers_of_tau]; [dom] is the domain of the QAP.
    The size assertions of 43-52 and the iterator ranges of 84-96 are checked. The knowledge_commitment_vector is made
    from the dense vector: every index is present (container::sparse_vector, another repository). *)
Definition mpc_initial_keypair (dom : seq F) (cs : r1cs F) (r : tau_result G1 G2) : option g16_keypair :=
  let r1cs_copy := swap_AB_if_beneficial cs in
  obnd (qap_instance_map dom r1cs_copy) (fun qap =>
  let m := size (qi_domain qap) in
  if [&& size (tr_coeffs_g1 r) == m, size (tr_coeffs_g2 r) == m, size (tr_alpha_coeffs_g1 r) == m,
         size (tr_beta_coeffs_g1 r) == m & size (tr_h r) == (m - 1)%N] then
    let n1 := (qi_num_variables qap).+1 in
    obnd (oseq [seq mpc_entry r (nth [::] (qi_A qap) i) (nth [::] (qi_B qap) i) (nth [::] (qi_C qap) i) | i <- iota 0 n1])
      (fun es =>
    let a_g1 := [seq x.1.1 | x <- es] in
    let b_kc := [seq x.1.2 | x <- es] in
    let abc := [seq x.2 | x <- es] in
    obnd (vget abc 0) (fun abc0 =>
    if (1 + qi_num_inputs qap <= size abc)%N && (qi_degree qap - 1 <= size (tr_h r))%N then
      Some (G16ProvingKey (tr_alpha_g1 r) (tr_beta_g1 r) (tr_beta_g2 r) g1 g2
              a_g1 (KcVector (iota 0 n1) b_kc n1) (take (qi_degree qap - 1) (tr_h r))
              (drop (qi_num_inputs qap + 1) abc) r1cs_copy,
            G16VerificationKey (e (tr_alpha_g1 r) (tr_beta_g2 r)) g2 g2 abc0
              (take (qi_num_inputs qap) (drop 1 abc)))
    else None))
  else None).

(** crs_operations.hpp:113-128 [transform_keypair]. [delta.inversed()] of zero is outside the model's domain: the
    theorems assume delta non-zero. *)
Definition mpc_transform_keypair (k : g16_keypair) (delta : F) : g16_keypair :=
  let: (pk, vk) := k in
  let delta_inv := delta^-1 in
  (G16ProvingKey (pk_alpha_g1 pk) (pk_beta_g1 pk) (pk_beta_g2 pk) (delta *: pk_delta_g1 pk) (delta *: pk_delta_g2 pk)
     (pk_A_query pk) (pk_B_query pk) [seq delta_inv *: g | g <- pk_H_query pk] [seq delta_inv *: g | g <- pk_L_query pk]
     (pk_constraint_system pk),
   G16VerificationKey (vk_alpha_g1_beta_g2 vk) (vk_gamma_g2 vk) (delta *: vk_delta_g2 vk)
     (vk_gamma_ABC_first vk) (vk_gamma_ABC_rest vk)).

(** public_key.hpp:36-47 *)
Record mpc_public_key := MpcPublicKey { mp_delta_after : G1; mp_pok : element_pok G1 G2 }.

Variable blake256_first : seq nat -> nat.
Variable random_g2 : nat -> G2.
Variable serialize_g1 : G1 -> seq nat.
(** r1cs_gg_ppzksnark_mpc.hpp:200-250 [compute_transcript] and the two serialisations *)
Variable mpc_transcript : r1cs F -> option mpc_public_key -> seq nat.

(** r1cs_gg_ppzksnark_mpc.hpp:76-86 [proof_eval]; [s] is the point drawn by the proof of knowledge *)
Definition mpc_proof_eval (s : G1) (delta : F) (previous : option mpc_public_key) (k : g16_keypair) : mpc_public_key :=
  let transcript := mpc_transcript (pk_constraint_system k.1) previous in
  let delta_pok := pok_proof_eval blake256_first random_g2 serialize_g1 s delta transcript 0 in
  let delta_after := delta *: (if previous is Some p then mp_delta_after p else g1) in
  MpcPublicKey delta_after delta_pok.

(** container::sparse_vector::operator[] (another repository): the value at an index, zero if absent *)
Definition kc_at (v : kc_vector G2 G1) (i : nat) : G2 * G1 :=
  if i \in kv_indices v then nth (0, 0) (kv_values v) (index i (kv_indices v)) else (0, 0).
(** container::sparse_vector::operator==: same size, same value at every index, absent meaning zero *)
Definition kc_vector_eq (v w : kc_vector G2 G1) : bool :=
  (kv_domain_size v == kv_domain_size w) && all (fun i => kc_at v i == kc_at w i) (kv_indices v ++ kv_indices w).
(** r1cs.hpp operator== *)
Definition r1cs_eq (c d : r1cs F) : bool :=
  [&& r_constraints c == r_constraints d, r_primary_input_size c == r_primary_input_size d
    & r_auxiliary_input_size c == r_auxiliary_input_size d].

(** r1cs_gg_ppzksnark_mpc.hpp:142-157 the loop over the public keys; [None]: some key is rejected *)
Fixpoint mpc_check_chain (cs : r1cs F) (transcript : seq nat) (current_delta : G1) (pubkeys : seq mpc_public_key)
    : option G1 :=
  if pubkeys is p :: pubkeys' then
    let g2_s := compute_g2_s blake256_first random_g2 serialize_g1 (pok_g1_s (mp_pok p)) (pok_g1_s_x (mp_pok p)) transcript 0 in
    if ~~ pok_verify_with e (mp_pok p) g2_s then None
    else if ~~ is_same_ratio e (current_delta, mp_delta_after p) (g2_s, pok_g2_s_x (mp_pok p)) then None
    else mpc_check_chain cs (mpc_transcript cs (Some p)) (mp_delta_after p) pubkeys'
  else Some current_delta.

(** r1cs_gg_ppzksnark_mpc.hpp:88-191 [verify_eval]; [rnd k] is the k-th scalar drawn by [merge_pairs] *)
Definition mpc_verify_eval (rnd : nat -> F) (dom : seq F) (k : g16_keypair) (pubkeys : seq mpc_public_key)
    (cs : r1cs F) (r : tau_result G1 G2) : option bool :=
  obnd (mpc_initial_keypair dom cs r) (fun i =>
  if size (pk_H_query i.1) != size (pk_H_query k.1) then Some false
  else if size (pk_L_query i.1) != size (pk_L_query k.1) then Some false
  else if pk_alpha_g1 i.1 != pk_alpha_g1 k.1 then Some false
  else if pk_beta_g1 i.1 != pk_beta_g1 k.1 then Some false
  else if pk_beta_g2 i.1 != pk_beta_g2 k.1 then Some false
  else if pk_A_query i.1 != pk_A_query k.1 then Some false
  else if ~~ kc_vector_eq (pk_B_query i.1) (pk_B_query k.1) then Some false
  else if ~~ r1cs_eq (pk_constraint_system i.1) (pk_constraint_system k.1) then Some false
  else if vk_alpha_g1_beta_g2 i.2 != vk_alpha_g1_beta_g2 k.2 then Some false
  else if vk_gamma_g2 i.2 != vk_gamma_g2 k.2 then Some false
  else if ~~ ((vk_gamma_ABC_first i.2 == vk_gamma_ABC_first k.2) && (vk_gamma_ABC_rest i.2 == vk_gamma_ABC_rest k.2))
  then Some false
  else
  if mpc_check_chain (pk_constraint_system k.1) (mpc_transcript (pk_constraint_system k.1) None) g1 pubkeys
    is Some current_delta then
    if current_delta != pk_delta_g1 k.1 then Some false
    else if ~~ is_same_ratio e (g1, current_delta) (g2, pk_delta_g2 k.1) then Some false
    else if pk_delta_g2 k.1 != vk_delta_g2 k.2 then Some false
    else
    obnd (merge_pairs rnd 0 (pk_H_query i.1) (pk_H_query k.1)) (fun h =>
    if ~~ is_same_ratio e h (pk_delta_g2 k.1, g2) then Some false else
    obnd (merge_pairs rnd (size (pk_H_query i.1)) (pk_L_query i.1) (pk_L_query k.1)) (fun l =>
    if ~~ is_same_ratio e l (pk_delta_g2 k.1, g2) then Some false else Some true))
  else Some false).

(** A ceremony: every participant, with secret [x.1] and drawn point [x.2], appends a public key and transforms the
    key pair. *)
Definition mpc_contribute (st : g16_keypair * seq mpc_public_key) (x : F * G1) : g16_keypair * seq mpc_public_key :=
  let: (k, pks) := st in
  let previous := if pks is p :: pks' then Some (last p pks') else None in
  (mpc_transform_keypair k x.1, rcons pks (mpc_proof_eval x.2 x.1 previous k)).
Definition mpc_ceremony (k : g16_keypair) (xs : seq (F * G1)) : g16_keypair * seq mpc_public_key :=
  foldl mpc_contribute (k, [::]) xs.

End Mpc.
