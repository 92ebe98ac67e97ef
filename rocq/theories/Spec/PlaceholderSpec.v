(** Specification of the evaluation points of Placeholder. *)
From mathcomp Require Import all_ssreflect all_algebra.
From Verif.Model Require Import PlonkVariable PlonkTable.
Set Implicit Arguments.
Unset Strict Implicit.
Unset Printing Implicit Defensive.
Import GRing.Theory.
Local Open Scope ring_scope.

(** The columns of the table are as many as the description says. *)
Definition fits_description (F : fieldType) (d : table_description) (public : plonk_public_table F) (witnesses : seq {poly F}) : bool :=
  [&& size witnesses == td_witness d, size (pu_public_inputs public) == td_public_input d,
      size (pu_constants public) == td_constant d & size (pu_selectors public) == td_selector d].

Section Spec.
Variables (F : fieldType) (omega y : F) (copy lookup : bool) (d : table_description)
  (permuted : nat) (* number of permuted columns *) (permutation_parts : nat) (rotations : seq (seq int)).
(** The points of polynomial [i] of batch [k]. Fixed batch: identity and permutation polynomials at [y]; the two special
    selectors at [y] and [omega y]; a constant or selector column at [y omega^r] for the rotations [r] of the column. Variable
    batch: a witness or public input column likewise. Permutation batch: all at [y]; both grand products also at
    [omega y]. Quotient batch: [y]. Lookup batch: [y], [omega y] and [omega^usable y]. *)
Definition column_points (i : nat) : seq F := [seq y * omega ^ r | r <- nth [::] rotations i].
Definition opening_points (k i : nat) : seq F :=
  let variables := (td_witness d + td_public_input d)%N in
  match k with
  | 0 => if (i < 2 * permuted)%N then [:: y] else
         if (i < 2 * permuted + 2)%N then [:: y; y * omega] else column_points (variables + (i - (2 * permuted + 2)))
  | 1 => column_points i
  | 2 => y :: (if copy && (i == 0%N) then [:: y * omega] else [::]) ++
              (if lookup && (i == permutation_parts) then [:: y * omega] else [::])
  | 3 => [:: y]
  | _ => [:: y; y * omega; y * omega ^+ td_usable_rows d]
  end.
End Spec.


(** The variable names a column of the table. *)
Definition in_table (d : table_description) (v : plonk_variable) : bool :=
  match pv_type v with
  | CWitness => (pv_index v < td_witness d)%N
  | CPublicInput => (pv_index v < td_public_input d)%N
  | CConstant => (pv_index v < td_constant d)%N
  | CSelector => (pv_index v < td_selector d)%N
  | CUninitialized => false
  end.
(** The batch and the polynomial that hold the column of the variable; [permuted] is the number of permuted columns. *)
Definition place_of (d : table_description) (permuted : nat) (v : plonk_variable) : nat * nat :=
  match pv_type v with
  | CWitness => (1, pv_index v)
  | CPublicInput => (1, td_witness d + pv_index v)
  | CConstant => (0, 2 * permuted + 2 + pv_index v)
  | _ => (0, 2 * permuted + 2 + td_constant d + pv_index v)
  end%N.
(** The same for the column with a given number in the order witnesses, public inputs, constants, selectors. *)
Definition place_of_column (d : table_description) (permuted i : nat) : nat * nat :=
  if (i < td_witness d + td_public_input d)%N then (1, i)%N
  else (0, 2 * permuted + 2 + (i - (td_witness d + td_public_input d)))%N.
