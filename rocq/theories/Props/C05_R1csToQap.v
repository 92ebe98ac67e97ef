(** C05: the R1CS-to-QAP reduction is complete and sound. *)
From mathcomp Require Import all_ssreflect all_algebra.
From Verif.Model Require Import Base LinearCombination ConstraintSystems Domain ArithmeticPrograms.
From Verif.Spec Require Import LinearSpec.
From Verif.Proofs Require Import LinearProofs DomainProofs ProgramProofs QapProofs.
From Verif.Props Require Import C02_R1csSemantics.
Set Implicit Arguments.
Unset Strict Implicit.
Unset Printing Implicit Defensive.
Import GRing.Theory.
Local Open Scope ring_scope.

Section C05.
Variable F : fieldType.
Variables (cs : r1cs F) (dom : seq F) (g : F).
(** The system only mentions existing variables, the domain [make_evaluation_domain] returned has distinct
    points and is at least as large as requested. *)
Hypothesis wf : r1cs_wf cs.
Hypothesis dom_uniq : uniq dom.
Hypothesis dom_size : (r_num_constraints cs + r_num_inputs cs + 1 <= size dom)%N.

(** Completeness: every satisfying assignment yields, for all blinding values [d1 d2 d3], a witness that the
    instance accepts at every evaluation point [t]; the witness carries the assignment unchanged. [g] is the coset
    shift: the coset must avoid the domain. *)
Theorem C05_complete (primary auxiliary : seq F) (d1 d2 d3 : F) :
  g != 0 -> (forall x, x \in dom -> g * x \notin dom) ->
  size primary = r_num_inputs cs -> (size primary + size auxiliary)%N = r_num_variables cs ->
  r_is_satisfied cs primary auxiliary = Some true ->
  exists w, [/\ qap_witness_map dom g cs primary auxiliary d1 d2 d3 = Some w,
    qw_ABCs w = primary ++ auxiliary,
    [/\ qw_d1 w = d1, qw_d2 w = d2 & qw_d3 w = d3] &
    forall t, exists2 q, qap_instance_map_with_evaluation dom cs t = Some q & qap_eval_is_satisfied q w].
Proof.
move=> g0 gz sp sz sat.
have [b [e hb]] := C02_r1cs_is_satisfied wf sp sz.
move: e; rewrite sat => -[eb]; have {}hb := hb.1; rewrite -eb in hb.
have [|w [h1 h2 [h3 h4 h5 _ _] _ h6]] := qap_complete wf dom_uniq dom_size g0 gz d1 d2 d3 _ (hb isT).
  by rewrite size_cat.
by exists w; split=> // t; have [q [? ?]] := h6 t; exists q.
Qed.

(** Soundness: a witness (any [d1 d2 d3], any H) accepted at more than [2 * degree] distinct evaluation points
    contains a satisfying assignment. *)
Theorem C05_sound (w : qap_witness F) (ts : seq F) :
  uniq ts -> (2 * size dom < size ts)%N ->
  (forall t, t \in ts -> exists2 q, qap_instance_map_with_evaluation dom cs t = Some q & qap_eval_is_satisfied q w) ->
  r_is_satisfied cs (take (r_num_inputs cs) (qw_ABCs w)) (drop (r_num_inputs cs) (qw_ABCs w)) = Some true.
Proof.
move=> uts lts h.
have {}h t : t \in ts -> exists q, qap_instance_map_with_evaluation dom cs t = Some q /\ qap_eval_is_satisfied q w.
  by move=> /h [q ? ?]; exists q.
have sw : size (qw_ABCs w) = r_num_variables cs.
  case: (ts) lts h => // t l _ /(_ t (mem_head _ _)) [q [e hq]].
  have [q' [[e' _ _] hs]] := qap_eval_spec wf dom_size t.
  by move: e; rewrite e' => -[eq]; move: hq; rewrite -eq => /hs [[_ _ _ ? _] _].
have hs := qap_sound wf dom_uniq dom_size uts lts h.
have [||b [e hb]] := @C02_r1cs_is_satisfied _ cs (take (r_num_inputs cs) (qw_ABCs w)) (drop (r_num_inputs cs) (qw_ABCs w)) wf.
- by rewrite size_takel // sw leq_addr.
- by rewrite -size_cat cat_take_drop.
rewrite e; move: hb; rewrite cat_take_drop => hb.
by case: b {e} hb => // hb; have := hb.2 hs.
Qed.

(** The instance in the Lagrange basis answers like the instance evaluated at the random point it draws. *)
Theorem C05_instance_maps_agree (t : F) (w : qap_witness F) :
  exists qi q, [/\ qap_instance_map dom cs = Some qi, qap_instance_map_with_evaluation dom cs t = Some q
    & qap_inst_is_satisfied qi t w = Some (qap_eval_is_satisfied q w)].
Proof.
by have [qi [q [h1 h2 h3]]] := qap_instances_agree wf dom t; exists qi, q.
Qed.

(** Without blinding the quotient has degree at most [degree - 2] (used by Groth16, which keeps only
    [degree - 1] powers of t in its H query). *)
Theorem C05_quotient_degree (primary auxiliary : seq F) :
  g != 0 -> (forall x, x \in dom -> g * x \notin dom) ->
  size primary = r_num_inputs cs -> (size primary + size auxiliary)%N = r_num_variables cs ->
  r_is_satisfied cs primary auxiliary = Some true ->
  exists2 w, qap_witness_map dom g cs primary auxiliary 0 0 0 = Some w &
    forall i, (size dom - 1 <= i)%N -> nth 0 (qw_H w) i = 0.
Proof.
move=> g0 gz sp sz sat.
have [b [e hb]] := C02_r1cs_is_satisfied wf sp sz.
move: e; rewrite sat => -[eb]; have {}hb := hb.1; rewrite -eb in hb.
have [|w [h1 h2 _ h3 h6]] := qap_complete wf dom_uniq dom_size g0 gz 0 0 0 _ (hb isT).
  by rewrite size_cat.
exists w => // i hi; rewrite -coef_Poly nth_default // (leq_trans (h3 _ _ _)) // -subn1 //.
Qed.

End C05.

(** Non-vacuity, over F_17 with the subgroup of order 4 and coset shift 3: x1*x2 = x3 with one public input. *)
Definition C05_F := [fieldType of 'F_17].
Definition C05_sys : r1cs C05_F :=
  R1cs 1 2 [:: R1csConstraint (lc_var _ 1) (lc_var _ 2) (lc_var _ 3)].
Definition C05_dom : seq C05_F := [:: 1; 4%:R; 16%:R; 13%:R].
Definition C05_check (aux : seq C05_F) (ts : seq C05_F) : option bool :=
  obnd (qap_witness_map C05_dom 3%:R C05_sys [:: 2%:R] aux 5%:R 6%:R 7%:R) (fun w =>
    omap (all id) (oseq [seq omap (fun q => qap_eval_is_satisfied q w)
                                  (qap_instance_map_with_evaluation C05_dom C05_sys t) | t <- ts])).
Example C05_witness :
  r1cs_wf C05_sys /\ uniq C05_dom /\ (forall x, x \in C05_dom -> (3%:R : C05_F) * x \notin C05_dom) /\
  r_is_satisfied C05_sys [:: 2%:R] [:: 3%:R; 6%:R] = Some true /\
  C05_check [:: 3%:R; 6%:R] [seq i%:R | i <- iota 0 9] = Some true /\
  C05_check [:: 3%:R; 5%:R] [seq i%:R | i <- iota 0 9] = Some false.
Proof.
split; first by move=> k; rewrite inE => /eqP->; split => t; rewrite !inE => /eqP->.
split; first by vm_compute.
split; first by apply/allP; vm_compute.
by vm_decide.
Qed.

Print Assumptions C05_complete.
Print Assumptions C05_sound.
Print Assumptions C05_instance_maps_agree.
Print Assumptions C05_quotient_degree.
