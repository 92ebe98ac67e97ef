(** Model of snark/systems/ppzksnark/{bacs_ppzksnark,tbcs_ppzksnark}/{generator,prover,verifier}.hpp: circuit
    arguments obtained from the constraint-system arguments through the reductions. The evaluation domain of a run
    depends on the reduced system; it is an argument. *)
From mathcomp Require Import all_ssreflect all_algebra.
From Verif.Model Require Import Base LinearCombination ConstraintSystems Circuits Domain ArithmeticPrograms
  KnowledgeCommitment Groth16 Pghr UscsPpzksnark.
Set Implicit Arguments.
Unset Strict Implicit.
Unset Printing Implicit Defensive.
Import GRing.Theory.
Local Open Scope ring_scope.

Section Circuit.
Variables (F : fieldType) (G1 G2 GT : lmodType F).
Variable e : G1 -> G2 -> GT.

(** bacs_ppzksnark/generator.hpp:63-72; the proving key is the circuit with the R1CS key *)
Definition bacs_generator (asserts : bool) (dom : seq F) (c : bacs F) (t alphaA alphaB alphaC rA rB beta gamma : F)
    (g1 : G1) (g2 : G2) (chunks : nat) : option ((bacs F * pghr_proving_key G1 G2) * pghr_verification_key G1 G2) :=
  obnd (pghr_generator asserts dom (bacs_to_r1cs_instance c) t alphaA alphaB alphaC rA rB beta gamma g1 g2 chunks)
    (fun k => Some ((c, k.1), k.2)).

(** bacs_ppzksnark/prover.hpp:66-81. Simplified: [r1cs_va] is declared with the variable assignment type of a PLONK system
    as its field (73); it is read as the vector of field elements that witness_map returns. *)
Definition bacs_prover (dom : seq F) (gen : F) (pk : bacs F * pghr_proving_key G1 G2) (primary auxiliary : seq F)
    (d1 d2 d3 : F) : option (pghr_proof G1 G2) :=
  obnd (bacs_to_r1cs_witness pk.1 primary auxiliary) (fun va =>
  pghr_prover dom gen pk.2 primary (drop (size primary) va) d1 d2 d3).

(** bacs_ppzksnark/verifier.hpp:121-126, 166-170 *)
Definition bacs_verify_weak (g2 : G2) (vk : pghr_verification_key G1 G2) (primary : seq F) (pr : pghr_proof G1 G2) :=
  pghr_verify_weak e g2 vk primary pr.
Definition bacs_verify_strong (g2 : G2) (vk : pghr_verification_key G1 G2) (primary : seq F) (pr : pghr_proof G1 G2) :=
  pghr_verify_strong e g2 vk primary pr.

(** tbcs_ppzksnark/generator.hpp:58-69 *)
Definition tbcs_generator (asserts : bool) (dom : seq F) (c : tbcs) (t alpha tilde : F) (g1 : G1) (g2 : G2)
    : option ((tbcs * uscs_proving_key G1 G2) * uscs_verification_key G1 G2) :=
  obnd (uscs_generator asserts dom (tbcs_to_uscs_instance F c) t alpha tilde g1 g2) (fun k => Some ((c, k.1), k.2)).

(** tbcs_ppzksnark/prover.hpp:64-80 *)
Definition tbcs_prover (dom : seq F) (gen : F) (pk : tbcs * uscs_proving_key G1 G2) (primary auxiliary : seq bool)
    (d : F) : option (uscs_proof G1 G2) :=
  obnd (tbcs_to_uscs_witness F pk.1 primary auxiliary) (fun va =>
  uscs_prover dom gen pk.2 (bits_to_field F primary) (drop (size primary) va) d).

(** tbcs_ppzksnark/verifier.hpp:106-115, 151-159 *)
Definition tbcs_verify_weak (g1 : G1) (g2 : G2) (vk : uscs_verification_key G1 G2) (primary : seq bool)
    (pr : uscs_proof G1 G2) := uscs_verify_weak e g1 g2 vk (bits_to_field F primary) pr.
Definition tbcs_verify_strong (g1 : G1) (g2 : G2) (vk : uscs_verification_key G1 G2) (primary : seq bool)
    (pr : uscs_proof G1 G2) := uscs_verify_strong e g1 g2 vk (bits_to_field F primary) pr.

End Circuit.
