(** C07: the USCS-to-SSP reduction is complete and sound. *)
From mathcomp Require Import all_ssreflect all_algebra.
From Verif.Model Require Import Base LinearCombination ConstraintSystems Domain ArithmeticPrograms.
From Verif.Spec Require Import LinearSpec.
From Verif.Proofs Require Import LinearProofs DomainProofs ProgramProofs SspProofs.
From Verif.Props Require Import C02_R1csSemantics.
Set Implicit Arguments.
Unset Strict Implicit.
Unset Printing Implicit Defensive.
Import GRing.Theory.
Local Open Scope ring_scope.

Section C07.
Variable F : fieldType.
Variables (cs : uscs F) (dom : seq F) (g : F).
(** Only existing variables are mentioned; the domain is non-empty, with distinct points, as large as requested. *)
Hypothesis wf : uscs_wf cs.
Hypothesis dom_uniq : uniq dom.
Hypothesis dom_pos : (0 < size dom)%N.
Hypothesis dom_size : (size (u_constraints cs) <= size dom)%N.

Theorem C07_complete (primary auxiliary : seq F) (d : F) :
  g != 0 -> (forall x, x \in dom -> g * x \notin dom) ->
  size primary = u_num_inputs cs -> (size primary + size auxiliary)%N = u_num_variables cs ->
  u_is_satisfied cs primary auxiliary = Some true ->
  exists w, [/\ ssp_witness_map dom g cs primary auxiliary d = Some w,
    pw_Vs w = primary ++ auxiliary, pw_d w = d &
    forall t, exists2 q, ssp_instance_map_with_evaluation dom cs t = Some q & ssp_eval_is_satisfied q w].
Proof.
move=> g0 gz sp sz sat.
have [b [e hb]] := C02_uscs_is_satisfied wf sp sz.
move: e; rewrite sat => -[eb]; have {}hb := hb.1; rewrite -eb in hb.
have [|w [h1 h2 h3 h6]] := ssp_complete wf dom_uniq dom_pos dom_size g0 gz d _ (hb isT).
  by rewrite size_cat.
by exists w; split=> // t; have [q [? ?]] := h6 t; exists q.
Qed.

(** Soundness at more than [2 * degree] distinct evaluation points. *)
Theorem C07_sound (w : ssp_witness F) (ts : seq F) :
  uniq ts -> (2 * size dom < size ts)%N ->
  (forall t, t \in ts -> exists2 q, ssp_instance_map_with_evaluation dom cs t = Some q & ssp_eval_is_satisfied q w) ->
  u_is_satisfied cs (take (u_num_inputs cs) (pw_Vs w)) (drop (u_num_inputs cs) (pw_Vs w)) = Some true.
Proof.
move=> uts lts h.
have {}h t : t \in ts -> exists q, ssp_instance_map_with_evaluation dom cs t = Some q /\ ssp_eval_is_satisfied q w.
  by move=> /h [q ? ?]; exists q.
have [sw hs] := ssp_sound wf dom_uniq dom_pos dom_size uts lts h.
have [||b [e hb]] := @C02_uscs_is_satisfied _ cs (take (u_num_inputs cs) (pw_Vs w)) (drop (u_num_inputs cs) (pw_Vs w)) wf.
- by rewrite size_takel // sw leq_addr.
- by rewrite -size_cat cat_take_drop.
rewrite e; move: hb; rewrite cat_take_drop => hb.
by case: b {e} hb => // hb; have := hb.2 hs.
Qed.
End C07.

(** Non-vacuity over F_17, the subgroup of order 4, coset shift 3. *)
Definition C07_F := [fieldType of 'F_17].
Definition C07_sys : uscs C07_F := Uscs 1 1 [:: [:: (1%N, 1); (2%N, 1)]; lc_var _ 1; [:: (2%N, 1); (0%N, 1)]].
Definition C07_dom : seq C07_F := [:: 1; 4%:R; 16%:R; 13%:R].
Definition C07_check (x y : C07_F) (ts : seq C07_F) : option bool :=
  obnd (ssp_witness_map C07_dom 3%:R C07_sys [:: x] [:: y] 5%:R) (fun w =>
    omap (all id) (oseq [seq omap (fun q => ssp_eval_is_satisfied q w)
                                  (ssp_instance_map_with_evaluation C07_dom C07_sys t) | t <- ts])).
Example C07_witness :
  uscs_wf C07_sys /\ uniq C07_dom /\ (forall x, x \in C07_dom -> (3%:R : C07_F) * x \notin C07_dom) /\
  u_is_satisfied C07_sys [:: 1] [:: - 2%:R] = Some true /\
  C07_check 1 (- 2%:R) [seq i%:R | i <- iota 0 9] = Some true /\
  C07_check 1 5%:R [seq i%:R | i <- iota 0 9] = Some false.
Proof.
split; first by move=> k; rewrite !inE => /or3P[] /eqP->; apply/vars_inP; vm_compute.
split; first by vm_compute.
split; first by apply/allP; vm_compute.
by vm_decide.
Qed.

Print Assumptions C07_complete.
Print Assumptions C07_sound.
