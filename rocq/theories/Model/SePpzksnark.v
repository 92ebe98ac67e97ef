(** Model of snark/systems/ppzksnark/r1cs_se_ppzksnark/{generator,prover,verifier,proof,verification_key,proving_key}.hpp
    (Groth-Maller, simulation extractable). Groups, pairing and random draws as in the model of Groth16; [dom] and
    [gen] are the evaluation domain and coset generator used by r1cs_to_sap. *)
From mathcomp Require Import all_ssreflect all_algebra.
From Verif.Model Require Import Base LinearCombination ConstraintSystems Domain ArithmeticPrograms KnowledgeCommitment Groth16 OrderedMap.
Set Implicit Arguments.
Unset Strict Implicit.
Unset Printing Implicit Defensive.
Import GRing.Theory.
Local Open Scope ring_scope.

Section Se.
Variables (F : fieldType) (G1 G2 GT : lmodType F).
Variable e : G1 -> G2 -> GT.

(** proving_key.hpp:40-90 *)
Record se_proving_key := SeProvingKey {
  sk_A_query : seq G1; sk_B_query : seq G2; sk_C_query_1 : seq G1; sk_C_query_2 : seq G1;
  sk_G_gamma_Z : G1; sk_H_gamma_Z : G2; sk_G_ab_gamma_Z : G1; sk_G_gamma2_Z2 : G1; sk_G_gamma2_Z_t : seq G1;
  sk_constraint_system : r1cs F }.

(** verification_key.hpp:40-70 *)
Record se_verification_key := SeVerificationKey {
  sv_H : G2; sv_G_alpha : G1; sv_H_beta : G2; sv_G_gamma : G1; sv_H_gamma : G2; sv_query : seq G1 }.

(** proof.hpp:40-70 *)
Record se_proof := SeProof { sp_A : G1; sp_B : G2; sp_C : G1 }.

(** generator.hpp:166-170 the loop multiplying [gamma2_Z_t] by [t] *)
Fixpoint geometric (c t : F) (k : nat) : seq F := if k is k'.+1 then c :: geometric (c * t) t k' else [::].

(** generator.hpp:68-216 [process]; [t], [alpha], [beta], [gamma], [G], [H] are the draws of 79 and 103-107.
    [None]: [t] is a root of the vanishing polynomial (the loop of 78-80 draws again). At and Ct have
    num_variables + 1 entries by construction of the SAP. *)
Definition se_generator (dom : seq F) (cs : r1cs F) (t alpha beta gamma : F) (G : G1) (H : G2)
    : option (se_proving_key * se_verification_key) :=
  oguard zeval dom t != 0;
  obnd (sap_instance_map_with_evaluation dom cs t) (fun q =>
  let At := se_At q in
  let Ct := se_Ct q in
  let ni := se_num_inputs q in
  let nv := se_num_variables q in
  let H_gamma := gamma *: H in
  let verifier_query := batch_exp G [seq gamma * nth 0 Ct i + (alpha + beta) * nth 0 At i | i <- iota 0 ni.+1] in
  let A_query := batch_exp G [seq gamma * a | a <- At] in
  let B_query := batch_exp H_gamma At in
  let G_gamma := gamma *: G in
  let G_gamma_Z := se_Zt q *: G_gamma in
  let H_gamma_Z := se_Zt q *: H_gamma in
  let G_ab_gamma_Z := (alpha + beta) *: G_gamma_Z in
  let G_gamma2_Z2 := (se_Zt q * gamma) *: G_gamma_Z in
  let G_gamma2_Z_t := batch_exp G (geometric (se_Zt q * gamma ^+ 2) t (se_degree q).+1) in
  let C_query_1 := batch_exp G [seq gamma * (gamma * nth 0 Ct i + (alpha + beta) * nth 0 At i)
                               | i <- iota ni.+1 (nv - ni)] in
  let double_gamma2_Z := gamma * gamma * se_Zt q + gamma * gamma * se_Zt q in
  let C_query_2 := batch_exp G [seq double_gamma2_Z * nth 0 At i | i <- iota 0 nv.+1] in
  Some (SeProvingKey A_query B_query C_query_1 C_query_2 G_gamma_Z H_gamma_Z G_ab_gamma_Z G_gamma2_Z2 G_gamma2_Z_t cs,
        SeVerificationKey H (alpha *: G) (beta *: H) G_gamma H_gamma verifier_query)).

(** prover.hpp:70-158 [process]; [d1], [d2], [r] are the draws of 75-76 and 90 *)
Definition se_prover (dom : seq F) (gen : F) (pk : se_proving_key) (primary auxiliary : seq F) (d1 d2 r : F)
    : option se_proof :=
  obnd (sap_witness_map dom gen (sk_constraint_system pk) primary auxiliary d1 d2) (fun w =>
  let x := sw_ACs w in
  obnd (vget (sk_A_query pk) 0) (fun A0 =>
  obnd (vget (sk_B_query pk) 0) (fun B0 =>
  obnd (vget (sk_C_query_2 pk) 0) (fun C20 =>
  obnd (vget (sk_G_gamma2_Z_t pk) 0) (fun Gt0 =>
  let A := r *: sk_G_gamma_Z pk + A0 + sw_d1 w *: sk_G_gamma_Z pk + multiexp (drop 1 (sk_A_query pk)) x in
  let B := r *: sk_H_gamma_Z pk + B0 + sw_d1 w *: sk_H_gamma_Z pk + multiexp (drop 1 (sk_B_query pk)) x in
  let C := multiexp (sk_C_query_1 pk) (drop (sw_num_inputs w) x) +
           (r * r) *: sk_G_gamma2_Z2 pk + r *: sk_G_ab_gamma_Z pk + sw_d1 w *: sk_G_ab_gamma_Z pk + r *: C20 +
           ((r + r) * sw_d1 w) *: sk_G_gamma2_Z2 pk + r *: multiexp (drop 1 (sk_C_query_2 pk)) x +
           sw_d2 w *: Gt0 + multiexp (sk_G_gamma2_Z_t pk) (sw_H w) in
  Some (SeProof A B C)))))).

(** verifier.hpp:118-179 the weak-input-consistency verifier, with the key processed as in 55-74. There is no
    length assertion here: [multiexp] runs over the common length of the query and the input. [None]: the query
    has no element. *)
Definition se_verify_weak (vk : se_verification_key) (input : seq F) (pr : se_proof) : option bool :=
  obnd (vget (sv_query vk) 0) (fun q0 =>
  let G_psi := q0 + multiexp (drop 1 (sv_query vk)) input in
  let test1 := - e (sp_A pr + sv_G_alpha vk) (sp_B pr + sv_H_beta vk) + e (sv_G_alpha vk) (sv_H_beta vk)
               + e G_psi (sv_H_gamma vk) + e (sp_C pr) (sv_H vk) in
  let test2 := e (sp_A pr) (sv_H_gamma vk) - e (sv_G_gamma vk) (sp_B pr) in
  Some ((test1 == 0) && (test2 == 0))).

(** verifier.hpp:209-223 the strong-input-consistency verifier *)
Definition se_verify_strong (vk : se_verification_key) (input : seq F) (pr : se_proof) : option bool :=
  if size (sv_query vk) != (size input).+1 then Some false else se_verify_weak vk input pr.

End Se.
