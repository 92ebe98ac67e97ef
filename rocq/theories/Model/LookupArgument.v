(** Model of the lookup argument: snark/arithmetization/plonk/{lookup_constraint,lookup_gate,lookup_table}.hpp, the lookup
    part of constraint_system.hpp and snark/systems/plonk/placeholder/lookup_argument.hpp. Conventions as in
    Model/PermutationArgument.v and Model/GatesArgument.v. *)
From Coq Require Import NArith.
From mathcomp Require Import all_ssreflect all_algebra.
From Verif.Model Require Import Base HashMap OrderedMap Expression PlonkVariable PlonkTable PermutationArgument GatesArgument.
Set Implicit Arguments.
Unset Strict Implicit.
Unset Printing Implicit Defensive.
Import GRing.Theory.
Local Open Scope ring_scope.

Section Definitions.
Variable F : fieldType.
Notation variable := [eqType of plonk_variable].

(** lookup_constraint.hpp:39-53 *)
Record lookup_constraint := LookupConstraint { lc_table_id : nat; lc_lookup_input : seq (plonk_constraint F) }.
(** lookup_gate.hpp:40-64 *)
Record lookup_gate := LookupGate { lg_constraints : seq lookup_constraint; lg_tag_index : nat }.
(** lookup_table.hpp:41-65 *)
Record lookup_table := LookupTable { lt_columns_number : nat; lt_tag_index : nat; lt_lookup_options : seq (seq plonk_variable) }.
(** lookup_table.hpp:61-64; [None]: the assertion fails *)
Definition append_option (t : lookup_table) (variables : seq plonk_variable) : option lookup_table :=
  oguard size variables == lt_columns_number t;
  Some (LookupTable (lt_columns_number t) (lt_tag_index t) (rcons (lt_lookup_options t) variables)).

(** constraint_system.hpp:172-186 *)
Definition lookup_options_num (tables : seq lookup_table) : nat := sumn [seq size (lt_lookup_options t) | t <- tables].
Definition lookup_constraints_num (gates : seq lookup_gate) : nat := sumn [seq size (lg_constraints g) | g <- gates].
(** constraint_system.hpp:165-170 *)
Definition sorted_lookup_columns_number (gates : seq lookup_gate) (tables : seq lookup_table) : nat :=
  if size gates == 0%N then 0%N else (lookup_options_num tables + lookup_constraints_num gates)%N.

(** constraint_system.hpp:218-233 *)
Definition input_degree (c : lookup_constraint) : nat :=
  foldl (fun m li => maxn m (N.to_nat (compute_max_degree li))) 0%N (lc_lookup_input c).
Definition max_lookup_gates_degree (gates : seq lookup_gate) : nat :=
  foldl (fun m g => foldl (fun m c => maxn m (input_degree c)) m (lg_constraints g)) 0%N gates.

(** constraint_system.hpp:256-306, lookup_argument.hpp:55-107 [lookup_parts]; the sizes are taken to be below 2^64 *)
Definition part_step (max_quotient_chunks : nat) (st : seq nat * nat * nat) (cost : nat) : seq nat * nat * nat :=
  let: (parts, lookup_chunk, lookup_part) := st in
  let: (parts, lookup_chunk, lookup_part) :=
    if (max_quotient_chunks <= lookup_chunk + cost)%N then (rcons parts lookup_part, 0%N, 0%N) else (parts, lookup_chunk, lookup_part) in
  (parts, lookup_chunk + cost, lookup_part.+1)%N.
Definition lookup_parts (gates : seq lookup_gate) (tables : seq lookup_table) (max_quotient_chunks : nat) : seq nat :=
  if max_quotient_chunks == 0%N then [:: sorted_lookup_columns_number gates tables] else
  let st := foldl (fun st g => foldl (fun st c => part_step max_quotient_chunks st (input_degree c).+1) st (lg_constraints g)) ([::], 0, 0)%N gates in
  let st := foldl (fun st t => foldl (fun st _ => part_step max_quotient_chunks st 3) st (lt_lookup_options t)) st tables in
  rcons st.1.1 st.2.

(** lookup_argument.hpp:565-635 [sort_polynomials], on the values of the reduced polynomials *)
Definition count_map := seq (F * nat).
Notation cfind := (hm_find (@eq_op F)).
Notation cset := (hm_set (@eq_op F)).
(** 573-580 *)
Definition count_value (m : count_map) (v : F) : count_map :=
  if cfind m v is Some n then cset m v n.+1 else cset m v 1%N.
(** 582-588; [None]: the assertion that the value occurs in a table fails *)
Definition count_input (m : count_map) (v : F) : option count_map :=
  if cfind m v is Some n then Some (cset m v n.+1) else None.
(** 599-606 [append_to_sorted]; [None]: out of range *)
Definition sorted_state := (seq (seq F) * nat * nat)%type.
Definition append_to_sorted (usable : nat) (st : sorted_state) (value : F) : option sorted_state :=
  let: (sorted, i1, j1) := st in
  olet col <- vget sorted i1;
  olet col <- vset col j1 value;
  olet sorted <- vset sorted i1 col;
  Some (if (usable <= j1.+1)%N then (sorted, i1.+1, 0%N) else (sorted, i1, j1.+1)).
Fixpoint append_times (usable n : nat) (st : sorted_state) (value : F) : option sorted_state :=
  if n is n'.+1 then olet st <- append_to_sorted usable st value; append_times usable n' st value else Some st.
(** 610-621: one value of a table. [sorting_map[prev]] inserts zero when the key is missing; it is always present *)
Definition sort_step (usable : nat) (m : count_map) (st : sorted_state * F) (v : F) : option (sorted_state * F) :=
  let: (s, prev) := st in
  if v != prev then
    olet s <- (if prev == 0 then append_to_sorted usable s prev else append_times usable (odflt 0%N (cfind m prev)) s prev);
    Some (s, v)
  else Some (s, prev).
(** the first [usable] values of every column, column after column; [None]: a column is too short *)
Definition usable_values (usable : nat) (cols : seq (seq F)) : option (seq F) :=
  omap flatten (omapM (fun col => omapM (vget col) (iota 0 usable)) cols).
(** 631-633 *)
Definition link_column (usable : nat) (sorted : seq (seq F)) (i : nat) : option (seq (seq F)) :=
  olet next <- vget sorted i.+1; olet v <- vget next 0;
  olet col <- vget sorted i; olet col <- vset col usable v;
  vset sorted i col.
Definition sort_polynomials (reduced_input reduced_value : seq (seq F)) (domain_size usable : nat) : option (seq (seq F)) :=
  olet values <- usable_values usable reduced_value;
  olet inputs <- usable_values usable reduced_input;
  let m := foldl count_value [::] values in
  olet m <- ofold count_input m inputs;
  let sorted := nseq (size reduced_input + size reduced_value) (nseq domain_size 0) in
  olet r <- ofold (sort_step usable m) ((sorted, 0%N, 0%N), 0) values;
  let: (s, prev) := r in
  olet s <- (if prev != 0 then append_times usable (odflt 0%N (cfind m prev)) s prev else Some s);
  let sorted := s.1.1 in
  oguard size sorted != 0%N;
  ofold (link_column usable) sorted (iota 0 (size sorted - 1)).
End Definitions.

Section Argument.
Variables (F : fieldType) (omega : F) (rows : nat).
Notation variable := [eqType of plonk_variable].
Notation dfs_of_values := (dfs_of_values omega rows).
Implicit Types (tables : seq lookup_table) (gates : seq (lookup_gate F)) (pt : polynomial_table F).

(** [theta_acc = theta; for x in xs: v += theta_acc * lookup_tag * x; theta_acc *= theta] *)
Definition compress (R : comRingType) (lookup_tag : R) (theta : R) (v : R) (xs : seq R) : R :=
  (foldl (fun st x => (st.1 + st.2 * lookup_tag * x, st.2 * theta)) (v, theta) xs).1.

(** lookup_argument.hpp:411-432 [prepare_lookup_value] *)
Definition option_columns pt (t : lookup_table) (o : seq plonk_variable) : option (seq {poly F}) :=
  omapM (fun i => olet v <- vget o i; vget (pl_constants pt) (pv_index v)) (iota 0 (lt_columns_number t)).
Fixpoint prepare_lookup_value pt (theta : F) (mask : {poly F}) (t_id : nat) tables : option (seq {poly F}) :=
  if tables is t :: tables' then
    olet tag <- vget (pl_selectors pt) (lt_tag_index t);
    olet vs <- omapM (fun o =>
      olet cols <- option_columns pt t o;
      Some (compress tag theta%:P (t_id.+1%:R *: tag) cols * mask)) (lt_lookup_options t);
    olet rest <- prepare_lookup_value pt theta mask t_id.+1 tables';
    Some (vs ++ rest)
  else Some [::].

(** lookup_argument.hpp:434-494 [prepare_lookup_input] *)
Definition input_polynomial pt (c : plonk_constraint F) : option {poly F} :=
  let e := convert_expr id polyC c in
  oguard all (fun v => isSome (variable_value omega pt v)) (for_each_variable e);
  olet r <- cached_evaluate (fun v : variable => odflt 0 (variable_value omega pt v)) [::] e;
  Some r.1.
Fixpoint prepare_lookup_input pt (theta : F) gates : option (seq {poly F}) :=
  if gates is g :: gates' then
    olet selector <- vget (pl_selectors pt) (lg_tag_index g);
    olet ls <- omapM (fun c =>
      olet xs <- omapM (input_polynomial pt) (lc_lookup_input c);
      Some (compress selector theta%:P ((lc_table_id c)%:R *: selector) xs)) (lg_constraints g);
    olet rest <- prepare_lookup_input pt theta gates';
    Some (ls ++ rest)
  else Some [::].

(** lookup_argument.hpp:311-321, 327-339, 358-371: products by parts. [None]: [lookup_part_sizes[current_part]] does not
    exist, or factors are left over. *)
Definition group_step (R : ringType) (part_sizes : seq nat) (st : seq R * seq R * nat) (g : R) : option (seq R * seq R * nat) :=
  let: (result, multipliers, current_part) := st in
  let multipliers := rcons multipliers g in
  olet p <- vget part_sizes current_part;
  Some (if size multipliers == p then (rcons result (\prod_(x <- multipliers) x), [::], current_part.+1)
        else (result, multipliers, current_part)).
Definition group_products (R : ringType) (part_sizes : seq nat) (gs : seq R) : option (seq R) :=
  olet st <- ofold (group_step part_sizes) ([::], [::], 0%N) gs;
  oguard size st.1.2 == 0%N; Some st.1.1.

(** lookup_argument.hpp:312-313, 326-329, 361: the factors *)
Definition g_factors (lookup_input lookup_value : seq {poly F}) (beta gamma : F) : seq {poly F} :=
  [seq (1 + beta) *: (gamma%:P + l) | l <- lookup_input] ++
  [seq ((1 + beta) * gamma)%:P + v + beta *: polynomial_shift omega v 1 | v <- lookup_value].
Definition h_factors (sorted : seq {poly F}) (beta gamma : F) : seq {poly F} :=
  [seq ((1 + beta) * gamma)%:P + s + beta *: polynomial_shift omega s 1 | s <- sorted].

(** lookup_argument.hpp:375-409 [compute_V_L]; [None]: out of range *)
Section VL.
Variables (sorted reduced_input reduced_value : seq (seq F)) (beta gamma : F).
Definition V_L_g (k : nat) : F :=
  let g := foldl (fun a r => a * (gamma + nth 0 r (k - 1))) ((1 + beta) ^+ size reduced_input) reduced_input in
  foldl (fun a r => a * ((1 + beta) * gamma + nth 0 r (k - 1) + beta * nth 0 r k)) g reduced_value.
Definition V_L_h (k : nat) : F :=
  foldl (fun a r => a * ((1 + beta) * gamma + nth 0 r (k - 1) + beta * nth 0 r k)) 1 sorted.
Fixpoint V_L_loop (v : F) (ks : seq nat) : seq F :=
  if ks is k :: ks' then let v' := v * V_L_g k * (V_L_h k)^-1 in v' :: V_L_loop v' ks' else [::].
Definition V_L_values (usable : nat) : option (seq F) :=
  oguard (usable < rows)%N; Some (1 :: V_L_loop 1 (iota 1 usable) ++ nseq (rows - usable.+1) 0).
End VL.

(** the transcript (see Model/Transcript.v) and the commitment to a batch of polynomials *)
Variables (T : Type) (challenge : T -> F * T) (C : Type) (absorb : T -> C -> T) (commit : seq {poly F} -> C).

(** The data of the preprocessor that the argument uses. *)
Record lookup_data := LookupData { ld_gates : seq (lookup_gate F); ld_tables : seq lookup_table; ld_q_last : {poly F};
  ld_q_blind : {poly F}; ld_lagrange_0 : {poly F}; ld_max_quotient_chunks : nat; ld_usable_rows : nat }.
(** The result: the constraint polynomials, the batches, the commitment *)
Record lookup_result := LookupResult { lr_F : seq {poly F}; lr_sorted : seq {poly F}; lr_V_L : {poly F};
  lr_parts : seq {poly F}; lr_commitment : C }.

(** lookup_argument.hpp:130-151 (constructor) and 153-294 [prove_eval] *)
Definition lookup_prove_eval (ld : lookup_data) pt (tr : T) : option (lookup_result * T) :=
  let (theta, tr) := challenge tr in
  let mask := 1 - ld_q_last ld - ld_q_blind ld in
  let usable := ld_usable_rows ld in
  olet lookup_value <- prepare_lookup_value pt theta mask 0 (ld_tables ld);
  olet lookup_input <- prepare_lookup_input pt theta (ld_gates ld);
  let reduced_value := [seq values_on_domain omega rows p | p <- lookup_value] in
  let reduced_input := [seq values_on_domain omega rows p | p <- lookup_input] in
  olet sorted_values <- sort_polynomials reduced_input reduced_value rows usable;
  let sorted := [seq dfs_of_values s | s <- sorted_values] in
  let commitment := commit sorted in
  let tr := absorb tr commitment in
  let (beta, tr) := challenge tr in
  let (gamma, tr) := challenge tr in
  let part_sizes := lookup_parts (ld_gates ld) (ld_tables ld) (ld_max_quotient_chunks ld) in
  let (alphas, tr) := draw challenge (size part_sizes - 1) tr in
  olet vl <- V_L_values sorted_values reduced_input reduced_value beta gamma usable;
  let V_L := dfs_of_values vl in
  oguard sumn part_sizes == size sorted;
  olet gs <- group_products part_sizes (g_factors lookup_input lookup_value beta gamma);
  olet hs <- group_products part_sizes (h_factors sorted beta gamma);
  let V_L_shifted := polynomial_shift omega V_L 1 in
  let F0 := ld_lagrange_0 ld * (1 - V_L) in
  let F1 := ld_q_last ld * (V_L * V_L - V_L) in
  olet fp <- (if size part_sizes == 1%N then
      olet g <- vget gs 0; olet h <- vget hs 0;
      Some ((g * V_L - h * V_L_shifted) * (ld_q_last ld + ld_q_blind ld - 1), [::])
    else
      oguard size part_sizes == size gs;
      oguard size part_sizes == size hs;
      let parts := [seq dfs_of_values v | v <- perm_parts omega usable (take (size part_sizes - 1) gs) (take (size part_sizes - 1) hs) vl] in
      olet s <- perm_sum alphas gs hs parts V_L V_L_shifted;
      Some (s * (ld_q_last ld + ld_q_blind ld - 1), parts));
  oguard size sorted != 0%N;
  let (alphas3, tr) := draw challenge (size sorted - 1) tr in
  let F3 := \sum_(x <- zip alphas3 (zip (behead sorted) sorted))
    (x.2.1 - polynomial_shift omega x.2.2 usable%:Z) * (x.1 *: ld_lagrange_0 ld) in
  Some (LookupResult [:: F0; F1; fp.1; F3] sorted V_L fp.2 commitment, tr).

(** ** The verifier *)
Notation ev_find := (hm_find (@eq_op [eqType of evaluation_key])).
Notation ev_set := (hm_set (@eq_op [eqType of evaluation_key])).
(** [evaluations[key]]: a missing key is inserted with the value zero *)
Definition ev_index (ev : evaluation_map F) (k : evaluation_key) : F * evaluation_map F :=
  if ev_find ev k is Some x then (x, ev) else (0, ev_set ev k 0).
Definition ev_indices (ev : evaluation_map F) (ks : seq evaluation_key) : seq F * evaluation_map F :=
  foldl (fun st k => let (x, ev) := ev_index st.2 k in (rcons st.1 x, ev)) ([::], ev) ks.

(** lookup_argument.hpp:707-724: one option. The keys are read in the order 0, 1 for every column; the values do not
    depend on the order. *)
Definition verify_option (theta selector_value shifted_selector_value mask_value shifted_mask_value : F) (t : lookup_table) (t_id : nat)
  (st : seq (F * F) * evaluation_map F) (o : seq plonk_variable) : option (seq (F * F) * evaluation_map F) :=
  oguard size o == lt_columns_number t;
  let (xs, ev) := ev_indices st.2 [seq (pv_index v, 0 : int, CConstant) | v <- o] in
  let (ys, ev) := ev_indices ev [seq (pv_index v, 1 : int, CConstant) | v <- o] in
  Some (rcons st.1 (compress selector_value theta (selector_value * t_id.+1%:R) xs * mask_value,
                    compress shifted_selector_value theta (shifted_selector_value * t_id.+1%:R) ys * shifted_mask_value), ev).
(** 701-725 *)
Fixpoint verify_tables (theta mask_value shifted_mask_value : F) (t_id : nat) tables (st : seq (F * F) * evaluation_map F)
  : option (seq (F * F) * evaluation_map F) :=
  if tables is t :: tables' then
    let (s, ev) := ev_index st.2 (lt_tag_index t, 0 : int, CSelector) in
    let (s', ev) := ev_index ev (lt_tag_index t, 1 : int, CSelector) in
    olet st <- ofold (verify_option theta s s' mask_value shifted_mask_value t t_id) (st.1, ev) (lt_lookup_options t);
    verify_tables theta mask_value shifted_mask_value t_id.+1 tables' st
  else Some st.
(** 729-743 *)
Definition verify_lookup_gate (theta : F) (st : seq F * evaluation_map F) (g : lookup_gate F) : option (seq F * evaluation_map F) :=
  let (s, ev) := ev_index st.2 (lg_tag_index g, 0 : int, CSelector) in
  olet ls <- omapM (fun c =>
    olet xs <- omapM (fun e => map_evaluate e ev) (lc_lookup_input c);
    Some (compress s theta (s * (lc_table_id c)%:R) xs)) (lg_constraints g);
  Some (st.1 ++ ls, ev).

(** 758-796: running products *)
Definition vgroup_step (part_sizes : seq nat) (st : seq F * F * nat * nat) (g : F) : option (seq F * F * nat * nat) :=
  let: (result, acc, current_size, current_part) := st in
  let acc := acc * g in
  let current_size := current_size.+1 in
  olet p <- vget part_sizes current_part;
  Some (if current_size == p then (rcons result acc, 1, 0%N, current_part.+1) else (result, acc, current_size, current_part)).
Definition vgroup_products (part_sizes : seq nat) (gs : seq F) : option (seq F) :=
  olet st <- ofold (vgroup_step part_sizes) ([::], 1, 0%N, 0%N) gs;
  oguard st.1.2 == 0%N; Some st.1.1.1.

(** lookup_argument.hpp:664-833 [verify_eval]. [ssv] are the values of lagrange_0, q_last and q_blind at the challenge,
    [ssv_shifted] those of q_last and q_blind at omega times the challenge; an element of [sorted] is the list of the values
    at the challenge, omega times it, and omega^usable times it. *)
Definition lookup_verify_eval gates tables (max_quotient_chunks : nat) (ssv ssv_shifted : seq F) (ev : evaluation_map F)
  (sorted : seq (seq F)) (V_L_values parts_values : seq F) (lookup_commitment : C) (tr : T) : option (seq F * evaluation_map F * T) :=
  let (theta, tr) := challenge tr in
  let tr := absorb tr lookup_commitment in
  olet l0 <- vget ssv 0; olet q_last <- vget ssv 1; olet q_blind <- vget ssv 2;
  olet q_last' <- vget ssv_shifted 0; olet q_blind' <- vget ssv_shifted 1;
  let mask_value := 1 - (q_last + q_blind) in
  let shifted_mask_value := 1 - (q_last' + q_blind') in
  olet st <- verify_tables theta mask_value shifted_mask_value 0 tables ([::], ev);
  let (lookup_value, ev) := st in
  olet st <- ofold (verify_lookup_gate theta) ([::], ev) gates;
  let (lookup_input, ev) := st in
  let (beta, tr) := challenge tr in
  let (gamma, tr) := challenge tr in
  let parts := lookup_parts gates tables max_quotient_chunks in
  let (alphas, tr) := draw challenge (size parts - 1) tr in
  oguard size alphas == size parts_values;
  olet gs <- vgroup_products parts ([seq (1 + beta) * (gamma + l) | l <- lookup_input] ++
    [seq (1 + beta) * gamma + v.1 + beta * v.2 | v <- lookup_value]);
  olet hfs <- omapM (fun s => olet s0 <- vget s 0; olet s1 <- vget s 1; Some ((1 + beta) * gamma + s0 + beta * s1)) sorted;
  olet hs <- vgroup_products parts hfs;
  oguard size gs == (size parts_values).+1;
  oguard size hs == (size parts_values).+1;
  olet vl <- vget V_L_values 0; olet vl_shifted <- vget V_L_values 1;
  let F0 := (1 - vl) * l0 in
  let F1 := q_last * (vl * vl - vl) in
  olet F2 <- (if size parts == 1%N then
      olet g <- vget gs 0; olet h <- vget hs 0;
      Some ((1 - (q_last + q_blind)) * (vl_shifted * h - vl * g))
    else
      olet s <- perm_vsum alphas gs hs parts_values vl vl_shifted;
      Some (s * (q_last + q_blind - 1)));
  let (alphas3, tr) := draw challenge (size sorted - 1) tr in
  olet ds <- omapM (fun x => olet s0 <- vget x.2.1 0; olet s2 <- vget x.2.2 2; Some ((s0 - s2) * x.1 * l0))
    (zip alphas3 (zip (behead sorted) sorted));
  Some ([:: F0; F1; F2; \sum_(d <- ds) d], ev, tr).
End Argument.
