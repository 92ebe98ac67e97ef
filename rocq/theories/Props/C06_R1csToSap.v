(** C06: the R1CS-to-SAP reduction is complete and sound. *)
From mathcomp Require Import all_ssreflect all_algebra.
From Verif.Model Require Import Base LinearCombination ConstraintSystems Domain ArithmeticPrograms.
From Verif.Spec Require Import LinearSpec.
From Verif.Proofs Require Import LinearProofs DomainProofs ProgramProofs SapProofs.
From Verif.Props Require Import C02_R1csSemantics.
Set Implicit Arguments.
Unset Strict Implicit.
Unset Printing Implicit Defensive.
Import GRing.Theory.
Local Open Scope ring_scope.

Section C06.
Variable F : fieldType.
Variables (cs : r1cs F) (dom : seq F) (g : F).
(** The system only mentions existing variables, the domain [make_evaluation_domain] returned has distinct
    points and is at least as large as the requested 2 * constraints + 2 * inputs + 1. *)
Hypothesis wf : r1cs_wf cs.
Hypothesis dom_uniq : uniq dom.
Hypothesis dom_size : (2 * r_num_constraints cs + 2 * r_num_inputs cs + 1 <= size dom)%N.

Lemma C06_dom : (sap_domain_size cs <= size dom)%N.
Proof. exact: dom_size. Qed.

(** Completeness: every satisfying assignment yields, for all blinding values [d1 d2], a witness that the
    instance accepts at every evaluation point [t]; the assignment is a prefix of the witness. *)
Theorem C06_complete (primary auxiliary : seq F) (d1 d2 : F) :
  g != 0 -> (forall x, x \in dom -> g * x \notin dom) ->
  size primary = r_num_inputs cs -> (size primary + size auxiliary)%N = r_num_variables cs ->
  r_is_satisfied cs primary auxiliary = Some true ->
  exists w, [/\ sap_witness_map dom g cs primary auxiliary d1 d2 = Some w,
    take (r_num_variables cs) (sw_ACs w) = primary ++ auxiliary,
    sw_d1 w = d1 /\ sw_d2 w = d2 &
    forall t, exists2 q, sap_instance_map_with_evaluation dom cs t = Some q & sap_eval_is_satisfied q w].
Proof.
move=> g0 gz sp sz sat.
have [b [e hb]] := C02_r1cs_is_satisfied wf sp sz.
move: e; rewrite sat => -[eb]; have {}hb := hb.1; rewrite -eb in hb.
have [|w [h1 h2 h3 h6]] := sap_complete wf dom_uniq C06_dom g0 gz d1 d2 _ (hb isT).
  by rewrite size_cat.
by exists w; split=> // t; have [q [? ?]] := h6 t; exists q.
Qed.

(** Soundness, in a field where 2 is invertible (the reduction works with 4ab = 4c, and every
    field of the library is of odd characteristic): a witness (any [d1 d2], any H) accepted at more than [2 * degree] distinct
    evaluation points contains a satisfying assignment of the original system, among its first variables. *)
Theorem C06_sound (w : sap_witness F) (ts : seq F) :
  (2%:R : F) != 0 -> uniq ts -> (2 * size dom < size ts)%N ->
  (forall t, t \in ts -> exists2 q, sap_instance_map_with_evaluation dom cs t = Some q & sap_eval_is_satisfied q w) ->
  let x := take (r_num_variables cs) (sw_ACs w) in
  r_is_satisfied cs (take (r_num_inputs cs) x) (drop (r_num_inputs cs) x) = Some true.
Proof.
move=> two uts lts h x.
have {}h t : t \in ts -> exists q, sap_instance_map_with_evaluation dom cs t = Some q /\ sap_eval_is_satisfied q w.
  by move=> /h [q ? ?]; exists q.
have [sw hs] := sap_sound wf dom_uniq C06_dom two uts lts h.
have sx : size x = r_num_variables cs by rewrite size_takel // sw n_N.
have [||b [e hb]] := @C02_r1cs_is_satisfied _ cs (take (r_num_inputs cs) x) (drop (r_num_inputs cs) x) wf.
- by rewrite size_takel // sx leq_addr.
- by rewrite -size_cat cat_take_drop.
rewrite e; move: hb; rewrite cat_take_drop => hb.
case: b {e} hb => // hb; rewrite hb.2 // => k hk; have := hs k hk.
rewrite -{1 2 3}(cat_take_drop (r_num_variables cs) (sw_ACs w)) -/x.
by have [ha hb' hc] := wf hk; rewrite !denote_catx ?sx.
Qed.

End C06.

(** Non-vacuity, over F_17 with the subgroup of order 8 and coset shift 3: x1*x2 = x3 with one public input. *)
Definition C06_F := [fieldType of 'F_17].
Definition C06_sys : r1cs C06_F :=
  R1cs 1 2 [:: R1csConstraint (lc_var _ 1) (lc_var _ 2) (lc_var _ 3)].
Definition C06_d : seq C06_F := [seq 2%:R ^+ i | i <- iota 0 8].
Definition C06_check (aux : seq C06_F) (ts : seq C06_F) : option bool :=
  obnd (sap_witness_map C06_d 3%:R C06_sys [:: 2%:R] aux 5%:R 6%:R) (fun w =>
    omap (all id) (oseq [seq omap (fun q => sap_eval_is_satisfied q w)
                                  (sap_instance_map_with_evaluation C06_d C06_sys t) | t <- ts])).
Example C06_witness :
  r1cs_wf C06_sys /\ uniq C06_d /\ (forall x, x \in C06_d -> (3%:R : C06_F) * x \notin C06_d) /\
  r_is_satisfied C06_sys [:: 2%:R] [:: 3%:R; 6%:R] = Some true /\
  C06_check [:: 3%:R; 6%:R] [seq i%:R | i <- iota 0 17] = Some true /\
  C06_check [:: 3%:R; 5%:R] [seq i%:R | i <- iota 0 17] = Some false.
Proof.
split; first by move=> k; rewrite inE => /eqP->; split => t; rewrite !inE => /eqP->.
split; first by vm_compute.
split; first by apply/allP; vm_compute.
by vm_decide.
Qed.

Print Assumptions C06_complete.
Print Assumptions C06_sound.
