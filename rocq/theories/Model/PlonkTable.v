(** Model of snark/arithmetization/plonk/{table_description,assignment,padding}.hpp: the description of a PLONK table, its
    columns and their padding. Numbers of columns and column sizes are naturals (the code narrows them to [uint32_t]); the
    padded number of rows is computed modulo 2^32 as in the code. *)
From Coq Require Import NArith.
From mathcomp Require Import all_ssreflect all_algebra.
From Verif.Model Require Import Base PlonkVariable.
Set Implicit Arguments.
Unset Strict Implicit.
Unset Printing Implicit Defensive.
Import GRing.Theory.

(** table_description.hpp:39-66 *)
Record table_description := TableDescription {
  td_witness : nat; td_public_input : nat; td_constant : nat; td_selector : nat; td_usable_rows : nat; td_rows : nat }.

(** table_description.hpp:68-85; [None] is [std::abort] *)
Definition global_index (d : table_description) (a : plonk_variable) : option nat :=
  match pv_type a with
  | CWitness => Some (pv_index a)
  | CPublicInput => Some (td_witness d + pv_index a)
  | CConstant => Some (td_witness d + td_public_input d + pv_index a)
  | CSelector => Some (td_witness d + td_public_input d + td_constant d + pv_index a)
  | CUninitialized => None
  end.
(** table_description.hpp:87-89 *)
Definition table_width (d : table_description) : nat := td_witness d + td_public_input d + td_constant d + td_selector d.

Section Table.
Variable T : Type.

(** assignment.hpp:54-66, 123-144, 278-310: the columns of a table, kind by kind *)
Record plonk_private_table := PrivateTable { pr_witnesses : seq (seq T) }.
Record plonk_public_table := PublicTable { pu_public_inputs : seq (seq T); pu_constants : seq (seq T); pu_selectors : seq (seq T) }.
Record plonk_table := PlonkTable { pt_private : plonk_private_table; pt_public : plonk_public_table }.

(** assignment.hpp:85-88, 166-169, 191-194, 216-219, 312-326: the accessors by kind; [None]: assertion violated *)
Definition witness (t : plonk_table) (i : nat) : option (seq T) := vget (pr_witnesses (pt_private t)) i.
Definition public_input (t : plonk_table) (i : nat) : option (seq T) := vget (pu_public_inputs (pt_public t)) i.
Definition constant (t : plonk_table) (i : nat) : option (seq T) := vget (pu_constants (pt_public t)) i.
Definition selector (t : plonk_table) (i : nat) : option (seq T) := vget (pu_selectors (pt_public t)) i.

(** assignment.hpp:77-79, 154-156, 179-181, 204-206, 397-423 *)
Definition witnesses_amount (t : plonk_table) : nat := size (pr_witnesses (pt_private t)).
Definition public_inputs_amount (t : plonk_table) : nat := size (pu_public_inputs (pt_public t)).
Definition constants_amount (t : plonk_table) : nat := size (pu_constants (pt_public t)).
Definition selectors_amount (t : plonk_table) : nat := size (pu_selectors (pt_public t)).

(** assignment.hpp:98-102; [None]: the exception [std::out_of_range] *)
Definition private_at (p : plonk_private_table) (index : nat) : option (seq T) :=
  if index < size (pr_witnesses p) then vget (pr_witnesses p) index else None.
(** assignment.hpp:244-255 *)
Definition public_at (p : plonk_public_table) (index : nat) : option (seq T) :=
  if index < size (pu_public_inputs p) then vget (pu_public_inputs p) index
  else
    let index := index - size (pu_public_inputs p) in
    if index < size (pu_constants p) then vget (pu_constants p) index
    else
      let index := index - size (pu_constants p) in
      if index < size (pu_selectors p) then vget (pu_selectors p) index else None.
(** assignment.hpp:257-259 *)
Definition public_size (p : plonk_public_table) : nat :=
  size (pu_public_inputs p) + size (pu_constants p) + size (pu_selectors p).
(** assignment.hpp:368-375 *)
Definition table_at (t : plonk_table) (index : nat) : option (seq T) :=
  if index < size (pr_witnesses (pt_private t)) then private_at (pt_private t) index
  else
    let index := index - size (pr_witnesses (pt_private t)) in
    if index < public_size (pt_public t) then public_at (pt_public t) index else None.
(** assignment.hpp:393-395 *)
Definition table_size (t : plonk_table) : nat := size (pr_witnesses (pt_private t)) + public_size (pt_public t).

(** assignment.hpp:429-453 *)
Definition rows_amount (t : plonk_table) : nat :=
  let maxrows := foldl (fun m (c : seq T) => maxn m (size c)) in
  maxrows (maxrows (maxrows (maxrows 0 (pr_witnesses (pt_private t))) (pu_public_inputs (pt_public t)))
    (pu_constants (pt_public t))) (pu_selectors (pt_public t)).

(** assignment.hpp:230-242, 328-334; [None]: assertion violated *)
Definition fill_column (cols : seq (seq T)) (index : nat) (column : seq T) : option (seq (seq T)) :=
  obnd (vget cols index) (fun c => if size c == 0 then vset cols index column else None).
Definition fill_constant (t : plonk_table) (index : nat) (column : seq T) : option plonk_table :=
  omap (fun cs => PlonkTable (pt_private t) (PublicTable (pu_public_inputs (pt_public t)) cs (pu_selectors (pt_public t))))
    (fill_column (pu_constants (pt_public t)) index column).
Definition fill_selector (t : plonk_table) (index : nat) (column : seq T) : option plonk_table :=
  omap (fun ss => PlonkTable (pt_private t) (PublicTable (pu_public_inputs (pt_public t)) (pu_constants (pt_public t)) ss))
    (fill_column (pu_selectors (pt_public t)) index column).

(** [std::vector::resize(n, x)] *)
Definition vresize (s : seq T) (n : nat) (x : T) : seq T := take n s ++ nseq (n - size s) x.
End Table.

(** ** Padding *)
(** [uint32_t] arithmetic *)
Definition fits_u32 (n : nat) : bool := N.ltb (N.of_nat n) (N.pow 2 32).
Definition wrap_u32 (n : nat) : nat := N.to_nat (N.modulo (N.of_nat n) (N.pow 2 32)).

(** padding.hpp:44-49, 90-95: [std::pow(2, std::ceil(std::log2(usable)))] (0 for no rows: log2(0) is minus infinity),
    doubled if equal, at least 8. [None]: the power of two does not fit in [uint32_t] (the conversion is undefined). *)
Definition padded_rows (usable : nat) : option nat :=
  let p := if usable == 0 then 0 else 2 ^ up_log 2 usable in
  if ~~ fits_u32 p then None else
  let p := if p == usable then wrap_u32 (p * 2) else p in
  Some (if p < 8 then 8 else p).

Section Padding.
Variable F : zmodType.
Local Open Scope ring_scope.

(** padding.hpp:40-80 [basic_padding]: the padded table and the returned number of rows *)
Definition basic_padding (t : plonk_table F) : option (plonk_table F * nat) :=
  omap (fun padded =>
    let pad := map (fun c : seq F => vresize c padded 0) in
    (PlonkTable (PrivateTable (pad (pr_witnesses (pt_private t))))
       (PublicTable (pad (pu_public_inputs (pt_public t))) (pad (pu_constants (pt_public t))) (pad (pu_selectors (pt_public t)))),
     padded))
  (padded_rows (rows_amount t)).

(** padding.hpp:117-122: one random element per cell from [usable] on; [rnd] is the stream of the generator's answers and
    [k] the number already drawn *)
Definition fill_random (rnd : nat -> F) (usable padded : nat) (st : seq (seq F) * nat) (c : seq F) : seq (seq F) * nat :=
  let c' := vresize c padded 0 in
  (rcons st.1 (take usable c' ++ [seq rnd (st.2 + i)%N | i <- iota 0 (size c' - usable)]), (st.2 + (size c' - usable))%N).
Definition fill_random_all (rnd : nat -> F) (usable padded : nat) (k : nat) (cols : seq (seq F)) : seq (seq F) * nat :=
  foldl (fill_random rnd usable padded) ([::], k) cols.

(** padding.hpp:83-143 [zk_padding] *)
Definition zk_padding (rnd : nat -> F) (t : plonk_table F) : option (plonk_table F * nat) :=
  let usable := rows_amount t in
  omap (fun padded =>
    let even := map (fun c : seq F => vresize c usable 0) in
    let pad := map (fun c : seq F => vresize c padded 0) in
    let w := fill_random_all rnd usable padded 0 (even (pr_witnesses (pt_private t))) in
    let pi := pad (even (pu_public_inputs (pt_public t))) in
    let c := fill_random_all rnd usable padded w.2 (even (pu_constants (pt_public t))) in
    let s := fill_random_all rnd usable padded c.2 (even (pu_selectors (pt_public t))) in
    (PlonkTable (PrivateTable w.1) (PublicTable pi c.1 s.1), padded))
  (padded_rows usable).
End Padding.
