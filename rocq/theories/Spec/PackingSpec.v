(** What a lookup table of a constraint system contains, read from an assignment table; and the rows of a subtable of a
    definition. Independent of the packing functions. *)
From mathcomp Require Import all_ssreflect all_algebra.
From Verif.Model Require Import Base OrderedMap PlonkVariable PlonkTable LookupArgument LookupPacking.
Set Implicit Arguments.
Unset Strict Implicit.
Unset Printing Implicit Defensive.
Import GRing.Theory.
Local Open Scope ring_scope.

Section Spec.
Variable F : fieldType.

(** The cell at row [r] of the constant column a variable names; [None] if there is no such cell. *)
Definition constant_cell (a : plonk_table F) (v : plonk_variable) (r : nat) : option F :=
  olet c <- constant a (pv_index v); vget c r.

(** The rows the selector of [t] selects, in each of the options of [t]: [None] if the selector or a cell does not exist,
    or if the selector has a value other than 0 and 1. *)
Definition selected_rows (a : plonk_table F) (t : lookup_table) : option (seq (seq F)) :=
  olet sel <- selector a (lt_tag_index t);
  oguard all (fun x => (x == 0) || (x == 1)) sel;
  olet rows <- omapM (fun o => omapM (fun r => omapM (fun v => constant_cell a v r) o)
    [seq r <- iota 0 (size sel) | nth 0 sel r == 1]) (lt_lookup_options t);
  Some (flatten rows).

(** Rows [begin .. end] of a table, restricted to the columns of the subtable. *)
Definition subtable_rows (t : seq (seq F)) (s : lookup_subtable) : option (seq (seq F)) :=
  omapM (fun r => omapM (fun c => olet column <- vget t c; vget column r) (sub_columns s))
    (iota (sub_begin s) ((sub_end s).+1 - sub_begin s)).
End Spec.
