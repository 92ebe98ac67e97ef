(** Model of [cycle_representation], the permutation of table cells built from the copy constraints
    (snark/systems/plonk/placeholder/preprocessor.hpp:286-361), and of copy constraints
    (snark/arithmetization/plonk/copy_constraint.hpp). *)
From mathcomp Require Import all_ssreflect all_algebra.
From Verif.Model Require Import Base OrderedMap PlonkVariable PlonkTable.
Set Implicit Arguments.
Unset Strict Implicit.
Unset Printing Implicit Defensive.

(** ** Maps accessed by key only: [std::map] as an association list *)
Section AMap.
Variables (K : eqType) (T : Type).
Definition amap := seq (K * T).
(** [None]: no such key (the code would insert a default value) *)
Fixpoint am_get (m : amap) (k : K) : option T :=
  if m is (k', x) :: m' then if k' == k then Some x else am_get m' k else None.
Fixpoint am_set (m : amap) (k : K) (x : T) : amap :=
  if m is (k', y) :: m' then if k' == k then (k, x) :: m' else (k', y) :: am_set m' k x else [:: (k, x)].
(** [count] *)
Definition am_count (m : amap) (k : K) : bool := k \in [seq e.1 | e <- m].
End AMap.

(** ** The cycles *)
Section Cycles.
Variable K : eqType.
(** preprocessor.hpp:290-292 *)
Record cycles := Cycles { cy_mapping : amap K K; cy_aux : amap K K; cy_sizes : amap K nat }.

(** 303-305, 323-333: a cell alone in its cycle *)
Definition cy_add (c : cycles) (k : K) : cycles :=
  Cycles (am_set (cy_mapping c) k k) (am_set (cy_aux c) k k) (am_set (cy_sizes c) k 1).
Definition cy_ensure (c : cycles) (k : K) : cycles := if am_count (cy_mapping c) k then c else cy_add c k.

(** 346-349: the do-while loop; [fuel] bounds the rounds ([None]: not finished, or a key is missing) *)
Fixpoint relabel (fuel : nat) (mapping aux : amap K K) (left z exit_condition : K) : option (amap K K) :=
  if fuel is fuel'.+1 then
    olet al <- am_get aux left;
    let aux := am_set aux z al in
    olet z <- am_get mapping z;
    if z != exit_condition then relabel fuel' mapping aux left z exit_condition else Some aux
  else None.

(** 321-356 [apply_copy_constraint] *)
Definition apply_copy_constraint (c : cycles) (x y : K) : option cycles :=
  let c := cy_ensure c x in
  let c := cy_ensure c y in
  olet ax <- am_get (cy_aux c) x;
  olet ay <- am_get (cy_aux c) y;
  if ax != ay then
    olet sx <- am_get (cy_sizes c) ax;
    olet sy <- am_get (cy_sizes c) ay;
    let (left, right) := if sx < sy then (y, x) else (x, y) in
    olet al <- am_get (cy_aux c) left;
    olet ar <- am_get (cy_aux c) right;
    let sizes := am_set (cy_sizes c) al (sx + sy) in
    olet aux <- relabel (size (cy_mapping c)) (cy_mapping c) (cy_aux c) left ar ar;
    olet tmp <- am_get (cy_mapping c) left;
    olet mr <- am_get (cy_mapping c) right;
    let mapping := am_set (cy_mapping c) left mr in
    let mapping := am_set mapping right tmp in
    Some (Cycles mapping aux sizes)
  else Some c.
End Cycles.

(** ** Copy constraints *)
(** copy_constraint.hpp:41-66: the constructor; [None]: the assertion that both variables are absolute fails *)
Record copy_constraint := CopyConstraint { cc_first : plonk_variable; cc_second : plonk_variable }.
Definition make_copy_constraint (a b : plonk_variable) : option copy_constraint :=
  if ~~ pv_relative a && ~~ pv_relative b then
    Some (if pv_gtb a b then CopyConstraint b a else CopyConstraint a b)
  else None.

(** preprocessor.hpp:310-317: the cell of a variable. The row is the rotation; rows and columns are naturals here and
    [uint32_t] in the code; negative rows are not modelled ([None]). *)
Definition cell := (nat * nat)%type.
Definition cell_of (d : table_description) (v : plonk_variable) : option cell :=
  olet i <- global_index d v;
  if pv_rotation v is Posz r then Some (i, r) else None.

(** preprocessor.hpp:294-319: the constructor *)
Definition cycle_representation (d : table_description) (ccs : seq copy_constraint) : option (cycles [eqType of cell]) :=
  let width := table_width d - td_selector d in
  let c := foldl (fun c i => foldl (fun c j => cy_add c (i, j)) c (iota 0 (td_rows d))) (Cycles [::] [::] [::]) (iota 0 width) in
  ofold (fun c cc =>
    olet x <- cell_of d (cc_first cc);
    olet y <- cell_of d (cc_second cc);
    apply_copy_constraint c x y) c ccs.
