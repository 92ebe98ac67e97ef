(** When two Groth16 key pairs are the same key. *)
From mathcomp Require Import all_ssreflect all_algebra.
From Verif.Model Require Import Base LinearCombination ConstraintSystems KnowledgeCommitment Groth16 PowersOfTau Groth16Mpc.
Set Implicit Arguments.
Unset Strict Implicit.
Unset Printing Implicit Defensive.
Import GRing.Theory.
Local Open Scope ring_scope.

Section MpcSpec.
Variables (F : fieldType) (G1 G2 GT : lmodType F).

(** Equal in every field; the sparse B query may store zeros explicitly in one and not in the other. *)
Definition same_key (k k' : g16_keypair G1 G2 GT) : Prop :=
  [/\ k.2 = k'.2,
      [/\ pk_alpha_g1 k.1 = pk_alpha_g1 k'.1, pk_beta_g1 k.1 = pk_beta_g1 k'.1, pk_beta_g2 k.1 = pk_beta_g2 k'.1,
          pk_delta_g1 k.1 = pk_delta_g1 k'.1 & pk_delta_g2 k.1 = pk_delta_g2 k'.1],
      [/\ pk_A_query k.1 = pk_A_query k'.1, pk_H_query k.1 = pk_H_query k'.1 & pk_L_query k.1 = pk_L_query k'.1],
      kv_domain_size (pk_B_query k.1) = kv_domain_size (pk_B_query k'.1) /\
      (forall i, kc_at (pk_B_query k.1) i = kc_at (pk_B_query k'.1) i)
    & pk_constraint_system k.1 = pk_constraint_system k'.1].
End MpcSpec.
