(** C03: BACS circuits reduce to equivalent R1CS. *)
From mathcomp Require Import all_ssreflect all_algebra.
From Verif.Model Require Import Base LinearCombination ConstraintSystems Circuits.
From Verif.Spec Require Import LinearSpec.
From Verif.Proofs Require Import LinearProofs BacsProofs.
Set Implicit Arguments.
Unset Strict Implicit.
Unset Printing Implicit Defensive.
Import GRing.Theory.
Local Open Scope ring_scope.

Section C03.
Variable F : fieldType.

(** Completeness: on the witness computed by [witness_map] the R1CS answers exactly what the circuit answers.
    Nothing reads out of range. *)
Theorem C03_witness_map_equivalent (c : bacs F) (primary auxiliary : seq F) :
  b_is_valid c = Some true ->
  size primary = b_primary_input_size c -> size auxiliary = b_auxiliary_input_size c ->
  exists w b, [/\ bacs_to_r1cs_witness c primary auxiliary = Some w,
    w = primary ++ drop (b_primary_input_size c) w,
    b_is_satisfied c primary auxiliary = Some b
    & r_is_satisfied (bacs_to_r1cs_instance c) primary (drop (b_primary_input_size c) w) = Some b].
Proof.
move=> /valid_wf; rewrite addn0 => wf sp sa.
have sz : size (primary ++ auxiliary) = b_num_inputs c by rewrite size_cat sp sa.
have wf' := wf; rewrite -sz in wf'.
have [w [ew sw]] := bwires_exists wf'.
have [et hg] := (bwiresP wf' sw).1 ew.
have e : w = primary ++ drop (b_primary_input_size c) w.
  rewrite -{1}(cat_take_drop (size (primary ++ auxiliary)) w) et -catA; congr (_ ++ _).
  by rewrite -{2}(cat_take_drop (size (primary ++ auxiliary)) w) et -sp -catA drop_size_cat.
have [b [eb hb]] := b_is_satisfiedE wf' ew sw.
exists w, b; split => //.
have sw' : size w = b_num_wires c by rewrite sw sz.
have [|b' [eb' hb']] := @r1cs_loopP _ w (r_constraints (bacs_to_r1cs_instance c)).
  by move=> k /(r1cs_inst_wf wf); rewrite sw'.
rewrite /r_is_satisfied -e eb'; congr Some.
apply/idP/idP.
  by move/hb'/r1cs_inst_sat => [_ h]; apply/hb.
by move/hb => h; apply/hb'/r1cs_inst_sat.
Qed.

(** Soundness: every satisfying R1CS assignment consists of the wire values the circuit computes from its own
    inputs, and the circuit is satisfied by them. *)
Theorem C03_sound (c : bacs F) (primary aux' : seq F) :
  b_is_valid c = Some true ->
  size primary = b_primary_input_size c ->
  size aux' = (b_auxiliary_input_size c + b_num_gates c)%N ->
  r_is_satisfied (bacs_to_r1cs_instance c) primary aux' = Some true ->
  b_get_all_wires c primary (take (b_auxiliary_input_size c) aux') = Some (primary ++ aux') /\
  b_is_satisfied c primary (take (b_auxiliary_input_size c) aux') = Some true.
Proof.
move=> /valid_wf; rewrite addn0 => wf sp sa' sat.
set aux := take _ _.
have saux : size aux = b_auxiliary_input_size c by rewrite size_takel // sa' leq_addr.
have sz : size (primary ++ aux) = b_num_inputs c by rewrite size_cat sp saux.
have wf' := wf; rewrite -sz in wf'.
have sw : size (primary ++ aux') = (size (primary ++ aux) + size (b_gates c))%N.
  by rewrite !size_cat saux sa' addnA.
have [|b' [eb' hb']] := @r1cs_loopP _ (primary ++ aux') (r_constraints (bacs_to_r1cs_instance c)).
  by move=> k /(r1cs_inst_wf wf); rewrite sw sz.
move: sat; rewrite /r_is_satisfied eb' => -[bt].
have /r1cs_inst_sat [h1 h2] := hb'.1 bt.
have ew : b_get_all_wires c primary aux = Some (primary ++ aux').
  apply/(bwiresP wf' sw); split => //.
  by rewrite size_cat take_cat ltnNge leq_addr /= addKn /aux size_takel // sa' leq_addr.
split => //; have [b [-> hb]] := b_is_satisfiedE wf' ew sw; congr Some.
by apply/hb.
Qed.

End C03.

(** Non-vacuity over F_7: inputs x1 (primary), x2 (auxiliary); x3 = (x1 + 1) * x2; x4 = (x3 - 6) * 1 is an output.
    (x1, x2) = (1, 3) satisfies, (1, 2) does not. *)
Definition C03_circuit : bacs [fieldType of 'F_7] :=
  Bacs 1 1 [:: BacsGate [:: (0%N, 1); (1%N, 1)] [:: (2%N, 1)] 3 false;
               BacsGate [:: (0%N, 1%:R); (3%N, 1)] [:: (0%N, 1)] 4 true].
Example C03_witness :
  b_is_valid C03_circuit = Some true /\
  b_is_satisfied C03_circuit [:: 1] [:: 3%:R] = Some true /\
  b_is_satisfied C03_circuit [:: 1] [:: 2%:R] = Some false /\
  bacs_to_r1cs_witness C03_circuit [:: 1] [:: 3%:R] = Some [:: 1; 3%:R; 6%:R; 0] /\
  r_is_satisfied (bacs_to_r1cs_instance C03_circuit) [:: 1] [:: 3%:R; 6%:R; 0] = Some true.
Proof. by vm_decide. Qed.

Print Assumptions C03_witness_map_equivalent.
Print Assumptions C03_sound.
