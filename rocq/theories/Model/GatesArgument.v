(** Model of the gates argument: snark/arithmetization/plonk/{gate,constraint}.hpp and
    snark/systems/plonk/placeholder/gates_argument.hpp. A [polynomial_dfs] is the polynomial it denotes; resizing it to a
    larger domain does not change it. *)
From Coq Require Import NArith.
From mathcomp Require Import all_ssreflect all_algebra.
From Verif.Model Require Import Base HashMap OrderedMap Expression PlonkVariable PlonkTable PermutationArgument.
Set Implicit Arguments.
Unset Strict Implicit.
Unset Printing Implicit Defensive.
Import GRing.Theory.
Local Open Scope ring_scope.

Section Gates.
Variable F : fieldType.
Notation variable := [eqType of plonk_variable].

(** constraint.hpp:57-84: a constraint is an expression *)
Definition plonk_constraint := expr variable F.
(** constraint.hpp:79-84: the constraint made of a vector of terms *)
Definition constraint_of_terms (terms : seq (eterm variable F)) : plonk_constraint :=
  foldl (fun c t => e_add_assign c (Term t)) (expr_const _ 0) terms.

(** gate.hpp:38-45 *)
Record plonk_gate := PlonkGate { g_constraints : seq plonk_constraint; g_selector : nat }.

(** gates_argument.hpp:97-114, constraint.hpp:92-104, 122-137, 162-177: the column a variable refers to; [None]: abort, or an
    index that does not exist *)
Definition variable_column (T : Type) (t : plonk_table T) (v : plonk_variable) : option (seq T) :=
  match pv_type v with
  | CWitness => witness t (pv_index v)
  | CPublicInput => public_input t (pv_index v)
  | CConstant => constant t (pv_index v)
  | CSelector => selector t (pv_index v)
  | CUninitialized => None
  end.

(** Evaluation of an expression when [get_var_value] can fail *)
Definition evaluate_opt (R : comRingType) (get : variable -> option R) (e : expr variable R) : option R :=
  if all (fun v => isSome (get v)) (for_each_variable e) then Some (evaluate (fun v => odflt 0 (get v)) e) else None.

(** constraint.hpp:93: [(rows_amount + row_index + var.rotation) % rows_amount] in 64-bit unsigned arithmetic *)
Definition rotated_row (rows row : nat) (rotation : int) : nat :=
  `|modz (modz ((rows + row)%:Z + rotation) (2%:Z ^+ 64)) rows%:Z|%N.
(** constraint.hpp:86-109: the value of a constraint on a row of the table *)
Definition row_evaluate (c : plonk_constraint) (row : nat) (t : plonk_table F) : option F :=
  evaluate_opt (fun v => olet col <- variable_column t v; vget col (rotated_row (rows_amount t) row (pv_rotation v))) c.

(** The columns of a table as polynomials: assignment.hpp:56-57 [plonk_polynomial_dfs_table] *)
Record polynomial_table := PolynomialTable { pl_witnesses : seq {poly F}; pl_public_inputs : seq {poly F};
  pl_constants : seq {poly F}; pl_selectors : seq {poly F} }.
Definition variable_polynomial (t : polynomial_table) (v : plonk_variable) : option {poly F} :=
  match pv_type v with
  | CWitness => vget (pl_witnesses t) (pv_index v)
  | CPublicInput => vget (pl_public_inputs t) (pv_index v)
  | CConstant => vget (pl_constants t) (pv_index v)
  | CSelector => vget (pl_selectors t) (pv_index v)
  | CUninitialized => None
  end.

Variables (omega : F) (rows : nat).
(** detail/column_polynomial.hpp:91-120 [column_polynomial_dfs], [column_range_polynomial_dfs]. [None]: the column does not
    have the size of the domain (padded tables have columns of this size; the code resizes other columns as if they were
    values on a smaller domain, which is not modelled). *)
Definition column_polynomial_dfs (col : seq F) : option {poly F} :=
  oguard size col == rows; Some (dfs_of_values omega rows col).
Definition polynomials_of_table (t : plonk_table F) : option polynomial_table :=
  olet w <- omapM column_polynomial_dfs (pr_witnesses (pt_private t));
  olet p <- omapM column_polynomial_dfs (pu_public_inputs (pt_public t));
  olet c <- omapM column_polynomial_dfs (pu_constants (pt_public t));
  olet s <- omapM column_polynomial_dfs (pu_selectors (pt_public t));
  Some (PolynomialTable w p c s).

(** gates_argument.hpp:97-119: the value of a variable *)
Definition variable_value (t : polynomial_table) (v : plonk_variable) : option {poly F} :=
  olet p <- variable_polynomial t v;
  Some (if pv_rotation v != 0 then polynomial_shift omega p (pv_rotation v) else p).

(** constraint.hpp:149-188 (and 111-147): a constraint as a polynomial *)
Definition polynomial_evaluate (c : plonk_constraint) (t : polynomial_table) : option {poly F} :=
  evaluate_opt (variable_value t) (convert_expr id polyC c).

(** gates_argument.hpp:76-124 [build_variable_value_map]: the variables of the expression, each once *)
Definition pmap := seq (plonk_variable * {poly F}).
Definition build_variable_value_map (e : expr variable [comRingType of {poly F}]) (t : polynomial_table) (m : pmap) : option pmap :=
  ofold (fun (m : pmap) v =>
    if hm_find pv_eqb m v is Some _ then Some m
    else olet p <- variable_value t v; Some (hm_set pv_eqb m v p)) m (undup (for_each_variable e)).

(** gates_argument.hpp:150-158: the degree limits of the two expressions. [None]: 2^32 does not fit in [uint32_t]. *)
Definition degree_limits (max_gates_degree : N) : option (N * N) :=
  let d := u32 (N.add max_gates_degree 1) in
  let max_degree := if N.eqb d 0 then N0 else N.pow 2 (N.log2_up d) in
  oguard N.ltb max_degree (N.pow 2 32);
  Some (max_degree, N.div max_degree 2).

Notation pexpr := (expr variable [comRingType of {poly F}]).
(** gates_argument.hpp:176-192: one constraint is added to the expression of large or of small degree *)
Definition add_constraint (limits : N * N) (theta : F) (st : pexpr * pexpr * F) (c : plonk_constraint) : pexpr * pexpr * F :=
  let: (large, small, theta_acc) := st in
  let next_term := e_mul (convert_expr id polyC c) (expr_const _ (theta_acc%:P)) in
  let constraint_degree := u32 (N.add (compute_max_degree c) 1) in
  if N.leb constraint_degree limits.2 then (large, e_add_assign small next_term, theta_acc * theta)
  else (e_add_assign large next_term, small, theta_acc * theta).
(** gates_argument.hpp:173-201: one gate *)
Definition add_gate (limits : N * N) (theta : F) (st : pexpr * pexpr * F) (g : plonk_gate) : pexpr * pexpr * F :=
  let: (large, small, theta_acc) := st in
  let: (gate_large, gate_small, theta_acc) := foldl (add_constraint limits theta) (expr_nil, expr_nil, theta_acc) (g_constraints g) in
  let selector := expr_var _ (PlonkVariable (g_selector g) 0 false CSelector) in
  (e_add_assign large (e_mul_assign gate_large selector), e_add_assign small (e_mul_assign gate_small selector), theta_acc).
Definition gate_expressions (limits : N * N) (theta : F) (gates : seq plonk_gate) : pexpr * pexpr :=
  (foldl (add_gate limits theta) (expr_nil, expr_nil, 1) gates).1.

(** gates_argument.hpp:203-217: the evaluator reads [variable_values[var]], a missing variable would be inserted as the zero
    polynomial *)
Definition evaluate_expression (t : polynomial_table) (m : pmap) (e : pexpr) : option ({poly F} * pmap) :=
  olet m <- build_variable_value_map e t m;
  olet r <- cached_evaluate (fun v => odflt 0 (hm_find pv_eqb m v)) [::] e;
  Some (r.1, m).

Variables (T : Type) (challenge : T -> F * T).
(** gates_argument.hpp:126-218 [prove_eval]. The map is cleared between the two expressions when the sizes of the extended
    domains differ, that is unless they are zero. *)
Definition gates_prove_eval (gates : seq plonk_gate) (t : polynomial_table) (max_gates_degree : N) (mask : {poly F}) (tr : T)
  : option ({poly F} * T) :=
  let (theta, tr) := challenge tr in
  olet limits <- degree_limits max_gates_degree;
  let (large, small) := gate_expressions limits theta gates in
  olet r <- evaluate_expression t [::] large;
  olet s <- evaluate_expression t (if N.eqb limits.1 limits.2 then r.2 else [::]) small;
  Some ((r.1 + s.1) * mask, tr).

(** ** The verifier *)
(** constraint.hpp:47-51 [plonk_evaluation_map]: from (index, rotation, type) to values *)
Definition evaluation_key := (nat * int * column_type)%type.
Definition evaluation_map := seq (evaluation_key * F).
Definition variable_key (v : plonk_variable) : evaluation_key := (pv_index v, pv_rotation v, pv_type v).
Notation ev_find := (hm_find (@eq_op [eqType of evaluation_key])).
Notation ev_set := (hm_set (@eq_op [eqType of evaluation_key])).
(** constraint.hpp:190-203; [None]: the assertion that the key is present fails *)
Definition map_evaluate (c : plonk_constraint) (ev : evaluation_map) : option F :=
  evaluate_opt (fun v => ev_find ev (variable_key v)) c.
(** gates_argument.hpp:232-247: one gate; [evaluations[selector_key]] inserts zero when the key is missing *)
Definition verify_constraint (ev : evaluation_map) (theta : F) (st : F * F) (c : plonk_constraint) : option (F * F) :=
  olet v <- map_evaluate c ev; Some (st.1 + v * st.2, st.2 * theta).
Definition verify_gate (theta : F) (st : F * F * evaluation_map) (g : plonk_gate) : option (F * F * evaluation_map) :=
  let: (f, theta_acc, ev) := st in
  olet r <- ofold (verify_constraint ev theta) (0, theta_acc) (g_constraints g);
  let key := (g_selector g, 0 : int, CSelector) in
  let (s, ev) := if ev_find ev key is Some s then (s, ev) else (0, ev_set ev key 0) in
  Some (f + r.1 * s, r.2, ev).
(** gates_argument.hpp:220-251 [verify_eval] *)
Definition gates_verify_eval (gates : seq plonk_gate) (ev : evaluation_map) (mask_value : F) (tr : T) : option (F * T) :=
  let (theta, tr) := challenge tr in
  olet st <- ofold (verify_gate theta) (0, 1, ev) gates;
  Some (st.1.1 * mask_value, tr).
End Gates.
