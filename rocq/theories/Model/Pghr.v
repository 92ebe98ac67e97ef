(** Model of snark/systems/ppzksnark/r1cs_ppzksnark/{generator,prover,verifier,proof,verification_key,proving_key}.hpp.
    As in the model of Groth16, the groups are modules over the scalar field written additively, [e] is the reduced
    pairing, and random draws are arguments; [dom] and [gen] are the evaluation domain and coset generator used by
    r1cs_to_qap. *)
From mathcomp Require Import all_ssreflect all_algebra.
From Verif.Model Require Import Base LinearCombination ConstraintSystems Domain ArithmeticPrograms KnowledgeCommitment Groth16 OrderedMap.
Set Implicit Arguments.
Unset Strict Implicit.
Unset Printing Implicit Defensive.
Import GRing.Theory.
Local Open Scope ring_scope.

(** container::sparse_vector::operator[] (another repository): the value stored under the index, or a
    default-constructed value (the zero of both groups) when the index is absent. *)
Definition kc_get (F : fieldType) (T1 T2 : lmodType F) (vec : kc_vector T1 T2) (i : nat) : T1 * T2 :=
  nth (0, 0) (kv_values vec) (index i (kv_indices vec)).

(** element_knowledge_commitment.hpp: componentwise operations on (g, h) *)
Definition kc_add (F : fieldType) (T1 T2 : lmodType F) (x y : T1 * T2) : T1 * T2 := (x.1 + y.1, x.2 + y.2).
Definition kc_mul (F : fieldType) (T1 T2 : lmodType F) (c : F) (x : T1 * T2) : T1 * T2 := (c *: x.1, c *: x.2).

Section Pghr.
Variables (F : fieldType) (G1 G2 GT : lmodType F).
Variable e : G1 -> G2 -> GT.

(** proving_key.hpp:44-80 *)
Record pghr_proving_key := PghrProvingKey {
  hk_A_query : kc_vector G1 G1; hk_B_query : kc_vector G2 G1; hk_C_query : kc_vector G1 G1;
  hk_H_query : seq G1; hk_K_query : seq G1; hk_constraint_system : r1cs F }.

(** verification_key.hpp:40-80; the accumulation_vector is its [first] element and the [rest] vector *)
Record pghr_verification_key := PghrVerificationKey {
  hv_alphaA_g2 : G2; hv_alphaB_g1 : G1; hv_alphaC_g2 : G2; hv_gamma_g2 : G2; hv_gamma_beta_g1 : G1;
  hv_gamma_beta_g2 : G2; hv_rC_Z_g2 : G2; hv_IC_first : G1; hv_IC_rest : seq G1 }.

(** proof.hpp:50-90 *)
Record pghr_proof := PghrProof {
  hp_A : G1 * G1; hp_B : G2 * G1; hp_C : G1 * G1; hp_H : G1; hp_K : G1 }.

(** generator.hpp:61-225 [process]; [t], [alphaA] .. [gamma] are the draws of 71 and 107-119 and [g1], [g2] the
    generators. [None]: assertions are compiled in ([asserts]) and the one of 139 fails. *)
Definition pghr_generator (asserts : bool) (dom : seq F) (cs : r1cs F) (t alphaA alphaB alphaC rA rB beta gamma : F)
    (g1 : G1) (g2 : G2) (chunks : nat) : option (pghr_proving_key * pghr_verification_key) :=
  let cs_copy := swap_AB_if_beneficial cs in
  obnd (qap_instance_map_with_evaluation dom cs_copy t) (fun q =>
  let nv := qe_num_variables q in
  let ni := qe_num_inputs q in
  let Zt := qe_Zt q in
  let At0 := rcons (qe_At q) Zt in
  let Bt := rcons (qe_Bt q) Zt in
  let Ct := rcons (qe_Ct q) Zt in
  let rC := rA * rB in
  let Kt := [seq beta * (rA * nth 0 At0 i + rB * nth 0 Bt i + rC * nth 0 Ct i) | i <- iota 0 nv.+1]
            ++ [:: beta * rA * Zt; beta * rB * Zt; beta * rC * Zt] in
  let IC := [seq nth 0 At0 i | i <- iota 0 ni.+1] in
  oguard asserts ==> all (fun c => c != 0) IC;
  let At := nseq ni.+1 0 ++ drop ni.+1 At0 in
  obnd (kc_batch_exp g1 g1 rA (rA * alphaA) At chunks) (fun A_query =>
  obnd (kc_batch_exp g2 g1 rB (rB * alphaB) Bt chunks) (fun B_query =>
  obnd (kc_batch_exp g1 g1 rC (rC * alphaC) Ct chunks) (fun C_query =>
  Some (PghrProvingKey A_query B_query C_query (batch_exp g1 (qe_Ht q)) (batch_exp g1 Kt) cs_copy,
        PghrVerificationKey (alphaA *: g2) (alphaB *: g1) (alphaC *: g2) (gamma *: g2) ((gamma * beta) *: g1)
          ((gamma * beta) *: g2) ((rC * Zt) *: g2)
          ((rA * nth 0 IC 0) *: g1) (batch_exp g1 [seq rA * nth 0 IC i | i <- iota 1 ni])))))).

(** prover.hpp:73-132 [process]; [d1], [d2], [d3] are the draws of 77-79. The end iterators of 104-115 are one past
    [coefficients_for_ABCs.end()]; only their distance is used (in an assertion), never the element. *)
Definition pghr_prover (dom : seq F) (gen : F) (pk : pghr_proving_key) (primary auxiliary : seq F) (d1 d2 d3 : F)
    : option pghr_proof :=
  obnd (qap_witness_map dom gen (hk_constraint_system pk) primary auxiliary d1 d2 d3) (fun w =>
  let nv := qw_num_variables w in
  let x := qw_ABCs w in
  let g_A := kc_add (kc_get (hk_A_query pk) 0) (kc_mul (qw_d1 w) (kc_get (hk_A_query pk) nv.+1)) in
  let g_B := kc_add (kc_get (hk_B_query pk) 0) (kc_mul (qw_d2 w) (kc_get (hk_B_query pk) nv.+1)) in
  let g_C := kc_add (kc_get (hk_C_query pk) 0) (kc_mul (qw_d3 w) (kc_get (hk_C_query pk) nv.+1)) in
  let K := hk_K_query pk in
  obnd (vget K 0) (fun K0 =>
  obnd (vget K nv.+1) (fun K1 =>
  obnd (vget K nv.+2) (fun K2 =>
  obnd (vget K nv.+3) (fun K3 =>
  obnd (kc_multiexp_with_mixed_addition (hk_A_query pk) 1 nv.+1 x) (fun mA =>
  obnd (kc_multiexp_with_mixed_addition (hk_B_query pk) 1 nv.+1 x) (fun mB =>
  obnd (kc_multiexp_with_mixed_addition (hk_C_query pk) 1 nv.+1 x) (fun mC =>
  let g_K := K0 + qw_d1 w *: K1 + qw_d2 w *: K2 + qw_d3 w *: K3 in
  Some (PghrProof (kc_add g_A mA) (kc_add g_B mB) (kc_add g_C mC)
    (0 + multiexp (take (qw_degree w).+1 (hk_H_query pk)) (take (qw_degree w).+1 (qw_H w)))
    (g_K + multiexp (take nv (drop 1 K)) (take nv x))))))))))).

(** verifier.hpp:117-194 the weak-input-consistency verifier; processing the key (54-77) only prepares Miller-loop
    operands and is modelled as the identity, adding the generator [g2] of G2. [None]: the assertion of 121 fails.
    Proofs of the model are made of group elements, so [is_well_formed] holds. Every failed check sets the
    result to false. *)
Definition pghr_verify_weak (g2 : G2) (vk : pghr_verification_key) (input : seq F) (pr : pghr_proof) : option bool :=
  oguard (size input <= size (hv_IC_rest vk))%N;
  let acc := accumulate_chunk (hv_IC_first vk) (hv_IC_rest vk) input in
  let kc_A := e (hp_A pr).1 (hv_alphaA_g2 vk) - e (hp_A pr).2 g2 in
  let kc_B := e (hv_alphaB_g1 vk) (hp_B pr).1 - e (hp_B pr).2 g2 in
  let kc_C := e (hp_C pr).1 (hv_alphaC_g2 vk) - e (hp_C pr).2 g2 in
  let QAP := e ((hp_A pr).1 + acc) (hp_B pr).1 - (e (hp_H pr) (hv_rC_Z_g2 vk) + e (hp_C pr).1 g2) in
  let K := e (hp_K pr) (hv_gamma_g2 vk)
           - (e (((hp_A pr).1 + acc) + (hp_C pr).1) (hv_gamma_beta_g2 vk) + e (hv_gamma_beta_g1 vk) (hp_B pr).1) in
  Some [&& kc_A == 0, kc_B == 0, kc_C == 0, QAP == 0 & K == 0].

(** verifier.hpp:224-237 the strong-input-consistency verifier *)
Definition pghr_verify_strong (g2 : G2) (vk : pghr_verification_key) (input : seq F) (pr : pghr_proof) : option bool :=
  if size (hv_IC_rest vk) != size input then Some false else pghr_verify_weak g2 vk input pr.

End Pghr.
