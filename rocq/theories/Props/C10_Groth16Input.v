(** C10: Groth16 input consistency. *)
From mathcomp Require Import all_ssreflect all_algebra.
From Verif.Model Require Import Base LinearCombination ConstraintSystems Domain ArithmeticPrograms KnowledgeCommitment Groth16.
From Verif.Spec Require Import LinearSpec GroupSpec.
From Verif.Proofs Require Import FieldTac KcProofs.
From Verif.Props Require Import C05_R1csToQap C08_Groth16Complete.
Set Implicit Arguments.
Unset Strict Implicit.
Unset Printing Implicit Defensive.
Import GRing.Theory.
Local Open Scope ring_scope.

Section C10.
Variables (F : fieldType) (G1 G2 GT : lmodType F) (e : G1 -> G2 -> GT).
Implicit Types (vk : g16_verification_key G1 G2 GT) (input : seq F) (pr : g16_proof G1 G2).

(** The verification equation of Groth16 for a full-length input. *)
Definition g16_equation vk input pr : Prop :=
  e (pr_A pr) (pr_B pr) =
    vk_alpha_g1_beta_g2 vk
    + e (vk_gamma_ABC_first vk + \sum_(i < size (vk_gamma_ABC_rest vk)) nth 0 input i *: nth 0 (vk_gamma_ABC_rest vk) i) (vk_gamma_g2 vk)
    + e (pr_C pr) (vk_delta_g2 vk).

(** [input] padded with zeros to the key's length *)
Definition zero_padded vk input := input ++ nseq (size (vk_gamma_ABC_rest vk) - size input) 0.

(** The weak verifier on an input that is not longer than the key accepts exactly when the verification equation holds
    for the input padded with zeros. *)
Theorem C10_weak vk input pr : (size input <= size (vk_gamma_ABC_rest vk))%N ->
  exists b, g16_verify_weak e vk input pr = Some b /\ (b <-> g16_equation vk (zero_padded vk input) pr).
Proof.
move=> h; rewrite /g16_verify_weak /g16_verify_weak_online /= h; eexists; split; first by reflexivity.
have -> : accumulate_chunk (vk_gamma_ABC_first vk) (vk_gamma_ABC_rest vk) input = vk_gamma_ABC_first vk +
   \sum_(i < size (vk_gamma_ABC_rest vk)) nth 0 (zero_padded vk input) i *: nth 0 (vk_gamma_ABC_rest vk) i.
  rewrite /accumulate_chunk; congr (_ + _).
  rewrite (multiexpE (n := size (vk_gamma_ABC_rest vk))); last by rewrite h orbT.
  apply: eq_bigr => i _; rewrite /zero_padded nth_cat; case: (ltnP i (size input)) => hi; first by rewrite nth_take.
  by rewrite nth_default // nth_nseq; case: ifP; rewrite !scale0r.
rewrite /g16_equation -/(is_true _); set x := e (_ + _) _; set y := e (pr_A _) _; set z := e (pr_C _) _.
by rewrite subr_eq -addrA; case: (y =P _) => h'; split=> //=; rewrite h'.
Qed.

(** ... hence it answers as it does on the padded input. *)
Theorem C10_weak_padding vk input pr : (size input <= size (vk_gamma_ABC_rest vk))%N ->
  g16_verify_weak e vk input pr = g16_verify_weak e vk (zero_padded vk input) pr.
Proof.
move=> h; have [b [-> hb]] := C10_weak pr h.
have sz : size (zero_padded vk input) = size (vk_gamma_ABC_rest vk) by rewrite size_cat size_nseq subnKC.
have [|b' [-> hb']] := @C10_weak vk (zero_padded vk input) pr; first by rewrite sz.
congr Some; apply/idP/idP.
  by move/hb => hh; apply/hb'; rewrite /zero_padded -/(zero_padded vk input) sz subnn cats0.
by move/hb'; rewrite {1}/zero_padded sz subnn cats0 => hh; apply/hb.
Qed.

(** The strong verifier rejects every input whose length differs from the key's. *)
Theorem C10_strong_rejects vk input pr : size input <> size (vk_gamma_ABC_rest vk) ->
  g16_verify_strong e vk input pr = Some false.
Proof. by move=> /eqP h; rewrite /g16_verify_strong /g16_verify_strong_online /= eq_sym h. Qed.

(** On inputs of the key's length it accepts exactly when the verification equation holds, as the weak one does. *)
Theorem C10_strong_exact vk input pr : size input = size (vk_gamma_ABC_rest vk) ->
  g16_verify_strong e vk input pr = g16_verify_weak e vk input pr /\
  exists b, g16_verify_strong e vk input pr = Some b /\ (b <-> g16_equation vk input pr).
Proof.
move=> h; have E : g16_verify_strong e vk input pr = g16_verify_weak e vk input pr.
  by rewrite /g16_verify_strong /g16_verify_strong_online /= h eqxx.
split=> //; rewrite E; have [|b [-> hb]] := @C10_weak vk input pr; first by rewrite h.
by exists b; split=> //; rewrite hb /zero_padded h subnn cats0.
Qed.

(** The online verifiers on the processed key answer as the offline ones on the key. *)
Theorem C10_online_offline vk input pr :
  g16_verify_weak_online e (process_verification_key vk) input pr = g16_verify_weak e vk input pr /\
  g16_verify_strong_online e (process_verification_key vk) input pr = g16_verify_strong e vk input pr.
Proof. by []. Qed.

End C10.

(** Non-vacuity: a key with two inputs, accepted and rejected inputs of several lengths. *)
Definition C10_vk : g16_verification_key C08_V C08_V C08_V :=
  @G16VerificationKey _ C08_V C08_V C08_V (2%:R : C05_F) (1 : C05_F) (1 : C05_F) (3%:R : C05_F) [:: 5%:R : C05_F; 7%:R : C05_F].
Definition C10_pr : g16_proof C08_V C08_V := @G16Proof _ C08_V C08_V (4%:R : C05_F) (5%:R : C05_F) (5%:R : C05_F).
Example C10_witness :
  g16_verify_weak C08_e C10_vk [:: 2%:R] C10_pr = Some true /\ g16_verify_weak C08_e C10_vk [:: 2%:R; 0] C10_pr = Some true
  /\ g16_verify_strong C08_e C10_vk [:: 2%:R] C10_pr = Some false /\ g16_verify_strong C08_e C10_vk [:: 2%:R; 0] C10_pr = Some true
  /\ g16_verify_weak C08_e C10_vk [:: 2%:R; 1] C10_pr = Some false /\ g16_verify_weak C08_e C10_vk [:: 2%:R; 0; 0] C10_pr = None.
Proof. by vm_decide. Qed.

Print Assumptions C10_weak.
Print Assumptions C10_weak_padding.
Print Assumptions C10_strong_rejects.
Print Assumptions C10_strong_exact.
Print Assumptions C10_online_offline.
