(** Model of snark/arithmetization/plonk/lookup_table_definition.hpp: the definitions of lookup tables and their packing into
    constant columns. [None]: an assertion fails, an index is out of range (undefined behaviour in C++), or [at] throws.
    [std::size_t] values are naturals (no overflow). A default-constructed field element (new cells of [resize]) is zero.
    Names are Coq strings; [table_id] is [lookup_table_ids.at] and [ids_number] is [lookup_table_ids.size()]. *)
From Coq Require Import String.
From mathcomp Require Import all_ssreflect all_algebra.
From Verif.Model Require Import Base OrderedMap Expression PlonkVariable PlonkTable GatesArgument LookupArgument.
Set Implicit Arguments.
Unset Strict Implicit.
Unset Printing Implicit Defensive.
Import GRing.Theory.
Local Open Scope ring_scope.

(** lookup_table_definition.hpp:38-44 *)
Record lookup_subtable := LookupSubtable { sub_columns : seq nat; sub_begin : nat; sub_end : nat }.

Section Packing.
Variable F : fieldType.

(** lookup_table_definition.hpp:46-69: [ld_table] is what [get_table] returns (column by column); [ld_columns] and [ld_rows]
    are the answers of the virtual functions [get_columns_number] and [get_rows_number]; [ld_subtables] is the map of the
    subtables in the order of its iteration *)
Record lookup_definition := LookupDefinition {
  ld_name : string; ld_columns : nat; ld_rows : nat; ld_table : seq (seq F); ld_subtables : seq (string * lookup_subtable) }.

(** lookup_table_definition.hpp:88-102 *)
Definition filled_definition (d : lookup_definition) : option lookup_definition :=
  olet c <- vget (ld_table d) 0;
  Some (LookupDefinition (ld_name d) (size (ld_table d)) (size c) (ld_table d) [::]).

Variables (table_id : string -> option nat) (ids_number : nat) (constant_columns_ids : seq nat).

(** Local variables of the two packing functions that are updated in their loops: [constant_columns], [usable_rows_after],
    [cur_selector_id], the assignment table and [bp_lookup_tables] *)
Record packing := Packing {
  pk_columns : seq (seq F); pk_usable : nat; pk_selector : nat; pk_assignment : plonk_table F; pk_tables : seq lookup_table }.

(** lookup_table_definition.hpp:148-150, 285-287 *)
Definition write_from (c : seq F) (start : nat) (xs : seq F) : option (seq F) :=
  ofold (fun c jx => vset c (start + jx.1)%N jx.2) c (zip (iota 0 (size xs)) xs).

(** lookup_table_definition.hpp:141-150 (with [start_column = 0]) and 279-287 *)
Definition place_column (start_column start_row : nat) (st : seq (seq F) * nat) (ix : nat * seq F) : option (seq (seq F) * nat) :=
  let: (columns, usable) := st in
  let: (i, xs) := ix in
  let last := (start_row + size xs)%N in
  olet c <- vget columns (start_column + i)%N;
  let: (c, usable) := if (size c < last)%N then (vresize c last 0, if (usable < last)%N then last else usable) else (c, usable) in
  olet c <- write_from c start_row xs;
  olet columns <- vset columns (start_column + i)%N c;
  Some (columns, usable).
(** lookup_table_definition.hpp:140-151, 278-288 *)
Definition place_table (start_column start_row : nat) (st : seq (seq F) * nat) (t : seq (seq F)) : option (seq (seq F) * nat) :=
  ofold (place_column start_column start_row) st (zip (iota 0 (size t)) t).

(** lookup_table_definition.hpp:156-159, 308-312 *)
Definition selector_column (usable start_row : nat) (s : lookup_subtable) : option (seq F) :=
  ofold (fun c k => vset c (start_row + k)%N 1) (nseq usable 0) (iota (sub_begin s) ((sub_end s).+1 - sub_begin s)).

(** lookup_table_definition.hpp:163-169, 257-263, 316-322: the variables of an option *)
Definition option_of (start_column : nat) (s : lookup_subtable) : option (seq plonk_variable) :=
  omapM (fun column_index =>
    omap (fun id => PlonkVariable id 0 false CConstant) (vget constant_columns_ids (start_column + column_index)%N)) (sub_columns s).

(** lookup_table_definition.hpp:161-162, 170, 254-265, 295-304, 314-323: the declaration of a table with its options *)
Definition declare_table (tables : seq lookup_table) (name sub_name : string) (s : lookup_subtable) (tag : nat)
  (options : seq (seq plonk_variable)) : option (seq lookup_table) :=
  olet id <- table_id (String.append name (String.append "/"%string sub_name));
  oguard (0 < id)%N;
  olet t <- ofold append_option (LookupTable (size (sub_columns s)) tag [::]) options;
  vset tables id.-1 t.

(** lookup_table_definition.hpp:153-176: one subtable with a selector of its own *)
Definition pack_subtable (start_column start_row : nat) (name : string) (st : packing) (ns : string * lookup_subtable) : option packing :=
  let: (sub_name, s) := ns in
  olet sel <- selector_column (pk_usable st) start_row s;
  olet o <- option_of start_column s;
  olet tables <- declare_table (pk_tables st) name sub_name s (pk_selector st) [:: o];
  olet a <- fill_selector (pk_assignment st) (pk_selector st) sel;
  Some (Packing (pk_columns st) (pk_usable st) (pk_selector st).+1 a tables).

(** lookup_table_definition.hpp:137-178: the body of the loop over the tables; the second component is [start_row] *)
Definition pack_table (st : packing * nat) (d : lookup_definition) : option (packing * nat) :=
  let: (st, start_row) := st in
  olet cu <- place_table 0 start_row (pk_columns st, pk_usable st) (ld_table d);
  olet st <- ofold (pack_subtable 0 start_row (ld_name d)) (Packing cu.1 cu.2 (pk_selector st) (pk_assignment st) (pk_tables st)) (ld_subtables d);
  Some (st, (start_row + ld_rows d)%N).

(** lookup_table_definition.hpp:182-184, 336-342 *)
Definition fill_constants (a : plonk_table F) (columns : seq (seq F)) : option (plonk_table F) :=
  ofold (fun a ic => olet id <- vget constant_columns_ids ic.1; fill_constant a id ic.2) a (zip (iota 0 (size columns)) columns).

(** lookup_table_definition.hpp:119-127 *)
Definition first_selector (gates : seq (plonk_gate F)) (lookup_gates : seq (lookup_gate F)) : nat :=
  (foldl (fun m g => maxn m (lg_tag_index g)) (foldl (fun m g => maxn m (g_selector g)) 0%N gates) lookup_gates).+1.

(** lookup_table_definition.hpp:106-187: the lookup tables of the constraint system, the assignment table and the returned
    number of usable rows; [tables] are the lookup tables the constraint system has before the call *)
Definition pack_lookup_tables (gates : seq (plonk_gate F)) (lookup_gates : seq (lookup_gate F)) (tables : seq lookup_table)
  (a : plonk_table F) (lookup_tables : seq lookup_definition) (usable_rows : nat) : option (seq lookup_table * plonk_table F * nat) :=
  let st := Packing (nseq (size constant_columns_ids) (nseq usable_rows 0)) usable_rows (first_selector gates lookup_gates) a
    (nseq ids_number (LookupTable 0 0 [::])) in
  olet st <- ofold pack_table (st, 1%N) lookup_tables;
  let st := st.1 in
  olet a <- fill_constants (pk_assignment st) (pk_columns st);
  Some (tables ++ pk_tables st, a, pk_usable st).

(** ** Horizontal packing *)

(** lookup_table_definition.hpp:210-214: the other local variables of the loop *)
Record horizontal := Horizontal {
  hz_packing : packing; hz_start_row : nat; hz_start_column : nat; hz_prev_columns : nat; hz_full_selector : nat }.

(** lookup_table_definition.hpp:290-330: [selector_ids] maps the range of rows of a subtable to its selector *)
Fixpoint find_range (m : seq ((nat * nat) * nat)) (k : nat * nat) : option nat :=
  if m is (k', v) :: m' then if k' == k then Some v else find_range m' k else None.
Definition pack_subtable_horizontal (start_column start_row : nat) (name : string)
  (st : packing * seq ((nat * nat) * nat)) (ns : string * lookup_subtable) : option (packing * seq ((nat * nat) * nat)) :=
  let: (st, selector_ids) := st in
  let s := ns.2 in
  if find_range selector_ids (sub_begin s, sub_end s) is Some selector_id then
    (* 295-305: the option is taken from the first constant columns *)
    olet o <- option_of 0 s;
    olet tables <- declare_table (pk_tables st) name ns.1 s selector_id [:: o];
    Some (Packing (pk_columns st) (pk_usable st) (pk_selector st) (pk_assignment st) tables, selector_ids)
  else
    let id := pk_selector st in
    olet st <- pack_subtable start_column start_row name st ns;
    Some (st, ((sub_begin s, sub_end s), id) :: selector_ids).

(** lookup_table_definition.hpp:240-250: row [cur] of the table goes to option [i], row [start_row]; the last row is repeated
    when the table is exhausted *)
Definition place_big (max_usable_rows : nat) (d : lookup_definition) (options_number start_column : nat) (columns : seq (seq F)) : option (seq (seq F)) :=
  ofold (fun columns (i : nat) =>
    ofold (fun columns (r : nat) =>
      let cur := (i * max_usable_rows.-1 + r.-1)%N in
      ofold (fun columns (k : nat) =>
        olet t <- vget (ld_table d) k;
        olet x <- vget t (if (cur < ld_rows d)%N then cur else (ld_rows d).-1);
        olet c <- vget columns (start_column + i * ld_columns d + k)%N;
        olet c <- vset c r x;
        vset columns (start_column + i * ld_columns d + k)%N c) columns (iota 0 (ld_columns d)))
      columns (iota 1 max_usable_rows.-1)) columns (iota 0 options_number).

(** lookup_table_definition.hpp:219-268 *)
Definition pack_big_table (max_usable_rows : nat) (h : horizontal) (d : lookup_definition) : option horizontal :=
  let st := hz_packing h in
  (* rows / max_usable_rows is a division by zero when max_usable_rows = 0 *)
  oguard (0 < max_usable_rows)%N;
  let options_number := (ld_rows d %/ max_usable_rows).+1 in
  let start_column := (hz_start_column h + hz_prev_columns h)%N in
  let prev_columns := (options_number * ld_columns d)%N in
  olet columns <- ofold (fun columns i => olet c <- vget columns i; vset columns i (vresize c max_usable_rows 0))
    (pk_columns st) (iota start_column prev_columns);
  olet full <- (if hz_full_selector h == 0%N then
      olet sel <- vset (nseq max_usable_rows 1) 0 0;
      olet a <- fill_selector (pk_assignment st) (pk_selector st) sel;
      Some (a, pk_selector st, (pk_selector st).+1)
    else Some (pk_assignment st, hz_full_selector h, pk_selector st));
  let: (a, full_selector, cur_selector) := full in
  let options_number := if (ld_rows d %% max_usable_rows == 0)%N then options_number.-1 else options_number in
  olet columns <- place_big max_usable_rows d options_number start_column columns;
  olet tables <- ofold (fun tables (ns : string * lookup_subtable) =>
      oguard (sub_begin ns.2 == 0)%N && (sub_end ns.2 == (ld_rows d).-1);
      olet options <- omapM (fun i => option_of (start_column + i * ld_columns d)%N ns.2) (iota 0 options_number);
      declare_table tables (ld_name d) ns.1 ns.2 full_selector options) (pk_tables st) (ld_subtables d);
  Some (Horizontal (Packing columns max_usable_rows cur_selector a tables) (hz_start_row h)
    (start_column + options_number * ld_columns d)%N prev_columns full_selector).

(** lookup_table_definition.hpp:216-332: the body of the loop *)
Definition pack_table_horizontal (max_usable_rows : nat) (h : horizontal) (d : lookup_definition) : option horizontal :=
  if (max_usable_rows < ld_rows d)%N then pack_big_table max_usable_rows h d else
  let: (start_row, start_column, prev_columns) :=
    if (hz_start_row h + ld_rows d < max_usable_rows)%N then
      (hz_start_row h, hz_start_column h, if (hz_prev_columns h < ld_columns d)%N then ld_columns d else hz_prev_columns h)
    else if (ld_rows d < max_usable_rows)%N then (1, (hz_start_column h + hz_prev_columns h), ld_columns d)%N
    else (hz_start_row h, hz_start_column h, hz_prev_columns h) in
  let st := hz_packing h in
  olet cu <- place_table start_column start_row (pk_columns st, pk_usable st) (ld_table d);
  olet st <- ofold (pack_subtable_horizontal start_column start_row (ld_name d))
    (Packing cu.1 cu.2 (pk_selector st) (pk_assignment st) (pk_tables st), [::]) (ld_subtables d);
  Some (Horizontal st.1 (start_row + ld_rows d)%N start_column prev_columns (hz_full_selector h)).

(** lookup_table_definition.hpp:189-344; [ordered] are the tables in the order of [get_tables_ordered_by_rows_number]
    (lines 71-86): sorted by their numbers of rows, tables with the same number in an unspecified order *)
Definition pack_lookup_tables_horizontal (tables : seq lookup_table) (a : plonk_table F) (ordered : seq lookup_definition)
  (cur_selector_id usable_rows max_usable_rows : nat) : option (seq lookup_table * plonk_table F * nat) :=
  let st := Packing (nseq (size constant_columns_ids) (nseq usable_rows 0)) usable_rows cur_selector_id a
    (nseq ids_number (LookupTable 0 0 [::])) in
  olet h <- ofold (pack_table_horizontal max_usable_rows) (Horizontal st 1 0 0 0) ordered;
  let st := hz_packing h in
  olet a <- fill_constants (pk_assignment st) (pk_columns st);
  Some (tables ++ pk_tables st, a, pk_usable st).
End Packing.
