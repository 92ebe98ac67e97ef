(** Specification of circuits and of tables that satisfy them. *)
From Coq Require Import NArith.
From mathcomp Require Import all_ssreflect all_algebra.
From Verif.Model Require Import Base OrderedMap Expression PlonkVariable PlonkTable CycleRepresentation GatesArgument LookupArgument Placeholder.
From Verif.Spec Require Import ExprSpec PlaceholderSpec.
From Verif.Props Require Import C21_CopyCycles C22_PermutationCompleteness C26_LookupCompleteness C27_LookupAgreement C28_LookupParts C29_GatesArgument.
Set Implicit Arguments.
Unset Strict Implicit.
Unset Printing Implicit Defensive.
Import GRing.Theory.
Local Open Scope ring_scope.

(** Every variable that the gates and the lookups read names a column. *)
Definition within (F : fieldType) (d : table_description) (cs : constraint_system F) : Prop :=
  (forall g v, List.In g (cs_gates cs) -> v \in gate_variables g -> PlaceholderSpec.in_table d v) /\
  (size (cs_lookup_gates cs) != 0%N ->
    (forall g v, List.In g (cs_lookup_gates cs) -> v \in lookup_gate_variables g -> PlaceholderSpec.in_table d v) /\
    (forall tb v, List.In tb (cs_lookup_tables cs) -> v \in lookup_table_variables tb -> PlaceholderSpec.in_table d v)).

Section Spec.
Variables (F : fieldType) (cs : constraint_system F) (d : table_description) (t : plonk_table F).
Notation usable := (td_usable_rows d).
Notation lookup := (size (cs_lookup_gates cs) != 0%N).

(** The table has the columns of the description, each with a value for every row. *)
Definition table_shape : bool :=
  [&& witnesses_amount t == td_witness d, public_inputs_amount t == td_public_input d, constants_amount t == td_constant d,
      selectors_amount t == td_selector d &
      all (fun col => size col == td_rows d) (pr_witnesses (pt_private t) ++ pu_public_inputs (pt_public t) ++
        pu_constants (pt_public t) ++ pu_selectors (pt_public t))].
(** The value of a cell, given by the number of its column (witnesses, then public inputs, constants, selectors) and its row. *)
Definition cell_value (x : cell) : F :=
  nth 0 (nth [::] (pr_witnesses (pt_private t) ++ pu_public_inputs (pt_public t) ++ pu_constants (pt_public t) ++ pu_selectors (pt_public t)) x.1) x.2.

(** The table satisfies the circuit: gates, copy constraints and lookups hold on the usable rows. *)
Definition satisfies : Prop :=
  [/\ satisfied (cs_gates cs) t usable,
      forall x y, constrained d (cs_copy_constraints cs) x y -> cell_value x = cell_value y &
      lookup -> lookups_hold (cs_lookup_gates cs) (cs_lookup_tables cs) t usable].

(** The variable names a cell of a usable row of a column that is not a selector. *)
Definition copy_cell_ok (v : plonk_variable) : bool :=
  [&& PlaceholderSpec.in_table d v, pv_type v != CSelector & if pv_rotation v is Posz r then (r < usable)%N else false].
(** What is asked of the circuit. The degrees fit their 32-bit counters; every variable names a column; copy constraints are
    between cells of usable rows of columns that are not selectors; the options of a lookup table have as many columns as
    the table, and each lookup item fits in [chunks] (C28). *)
Definition circuit_ok (chunks : nat) : Prop :=
  [/\ within d cs,
      (0 < usable < td_rows d)%N && (td_rows d %| 2 ^ 64)%N,
      (forall g c, List.In g (cs_gates cs) -> List.In c (g_constraints g) -> degree_fits c) /\
      (forall g c e, List.In g (cs_lookup_gates cs) -> List.In c (lg_constraints g) -> List.In e (lc_lookup_input c) -> degree_fits e) /\
      N.lt (N.of_nat (maxn (gates_degree (cs_gates cs)) (max_lookup_gates_degree (cs_lookup_gates cs)))) (N.pow 2 31),
      (forall cc, List.In cc (cs_copy_constraints cs) -> copy_cell_ok (cc_first cc) && copy_cell_ok (cc_second cc)) &
      lookup -> options_sized (cs_lookup_tables cs) /\ (chunks = 0%N \/ fits (cs_lookup_gates cs) (cs_lookup_tables cs) chunks)].
(** What is asked of the fixed columns: the selectors of lookups are zero or one, the lookup tables have the documented
    layout (C26). *)
Definition lookup_columns_ok : Prop := lookup ->
  boolean_selectors (cs_lookup_gates cs) (cs_lookup_tables cs) t usable /\ tables_laid_out (cs_lookup_tables cs) t usable.
End Spec.

(** No denominator of the grand product of the permutation argument vanishes: for a cell and the next cell of its cycle. *)
Definition copy_challenges_ok (F : fieldType) (omega : F) (cs : constraint_system F) (d : table_description) (t : plonk_table F)
  (columns : seq nat) (delta beta gamma : F) : Prop :=
  forall cr x y, cycle_representation d (cs_copy_constraints cs) = Some cr -> x.1 \in columns -> (x.2 < td_usable_rows d)%N ->
  next cr x = Some y -> beta * label omega columns delta y + gamma + cell_value t x != 0.
