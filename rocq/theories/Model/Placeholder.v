(** Model of snark/systems/plonk/placeholder/{preprocessor,prover,verifier,proof}.hpp and of the parts of
    snark/arithmetization/plonk/constraint_system.hpp that they use: the Placeholder preprocessor, prover and verifier over a
    batched commitment scheme. Conventions as in Model/PermutationArgument.v, Model/GatesArgument.v and
    Model/LookupArgument.v. [None] is a failed assertion, an exception or an access out of range. *)
From Coq Require Import NArith.
From mathcomp Require Import all_ssreflect all_algebra.
From Verif.Model Require Import Base OrderedMap HashMap Domain Expression PlonkVariable PlonkTable CycleRepresentation PolysEvaluator
  PermutationArgument GatesArgument LookupArgument Quotient.
Set Implicit Arguments.
Unset Strict Implicit.
Unset Printing Implicit Defensive.
Import GRing.Theory.
Local Open Scope ring_scope.

(** proof.hpp:37-41 *)
Definition FIXED_VALUES_BATCH : nat := 0.
Definition VARIABLE_VALUES_BATCH : nat := 1.
Definition PERMUTATION_BATCH : nat := 2.
Definition QUOTIENT_BATCH : nat := 3.
Definition LOOKUP_BATCH : nat := 4.

Section ConstraintSystem.
Variable F : fieldType.
(** constraint_system.hpp:73-99 *)
Record constraint_system := ConstraintSystem { cs_gates : seq (plonk_gate F); cs_copy_constraints : seq copy_constraint;
  cs_lookup_gates : seq (lookup_gate F); cs_lookup_tables : seq lookup_table; cs_public_input_sizes : seq nat }.

(** constraint_system.hpp:101-110: the elements of the set, in order of insertion *)
Definition permuted_variable (v : plonk_variable) : plonk_variable := PlonkVariable (pv_index v) 0 true (pv_type v).
Definition permuted_set (ccs : seq copy_constraint) : seq plonk_variable :=
  undup (flatten [seq [:: permuted_variable (cc_first cc); permuted_variable (cc_second cc)] | cc <- ccs]).
(** constraint_system.hpp:206-216 *)
Definition gates_degree (gates : seq (plonk_gate F)) : nat :=
  foldl (fun m g => foldl (fun m c => maxn m (N.to_nat (compute_max_degree c))) m (g_constraints g)) 0%N gates.
(** constraint_system.hpp:235-253; the sum is taken to be below 2^32 *)
Definition lookup_poly_degree_bound (cs : constraint_system) : nat :=
  if (0 < size (cs_lookup_gates cs))%N then
    (sumn [seq sumn [seq (input_degree c).+1 | c <- lg_constraints g] | g <- cs_lookup_gates cs] +
     sumn [seq 3 * size (lt_lookup_options t) | t <- cs_lookup_tables cs])%N
  else 0%N.

(** [std::set<int>::insert]; a set is the list of its elements in increasing order *)
Fixpoint set_insert (r : int) (s : seq int) : seq int :=
  if s is x :: s' then if r < x then r :: s else if r == x then s else x :: set_insert r s' else [:: r].
(** preprocessor.hpp:377, 397-402, 405-409: [result[i].insert(r)] *)
Definition insert_rotation (result : seq (seq int)) (ir : nat * int) : option (seq (seq int)) :=
  olet s <- vget result ir.1; vset result ir.1 (set_insert ir.2 s).
(** preprocessor.hpp:375-379: the visitor *)
Definition insert_variable (d : table_description) (result : seq (seq int)) (v : plonk_variable) : option (seq (seq int)) :=
  olet i <- global_index d v; insert_rotation result (i, pv_rotation v).
(** preprocessor.hpp:364-416 [columns_rotations] *)
Definition columns_rotations (cs : constraint_system) (d : table_description) : option (seq (seq int)) :=
  let result := nseq (table_width d) [:: 0 : int] in
  olet result <- ofold (insert_variable d) result
    (flatten [seq flatten [seq for_each_variable c | c <- g_constraints g] | g <- cs_gates cs]);
  if size (cs_lookup_gates cs) != 0%N then
    olet result <- ofold (insert_variable d) result
      (flatten [seq flatten [seq flatten [seq for_each_variable e | e <- lc_lookup_input c] | c <- lg_constraints g] | g <- cs_lookup_gates cs]);
    ofold insert_rotation result
      (flatten [seq ((td_witness d + td_public_input d + td_constant d + lt_tag_index t)%N, 1 : int) ::
                    [seq ((td_witness d + td_public_input d + pv_index v)%N, 1 : int) | v <- flatten (lt_lookup_options t)]
               | t <- cs_lookup_tables cs])
  else Some result.
End ConstraintSystem.

Section Placeholder.
Variables (F : fieldType) (omega : F).
Implicit Types (cs : constraint_system F) (d : table_description) (z : eval_storage F).
(** the transcript (Model/Transcript.v): challenges and absorption of commitments and of the hash of the constraint system *)
Variables (T : Type) (tr_start : T) (challenge : T -> F * T) (C H : Type) (absorb : T -> C -> T) (absorb_hash : T -> H -> T).
(** iteration order of the unordered set of permuted columns *)
Variable iteration : seq plonk_variable -> seq plonk_variable.

(** ** The commitment scheme
    The state shared by the schemes (Model/PolysEvaluator.v) and the commitments made so far. [commit_polys] is the
    commitment to the polynomials of a batch, [committable] the condition under which it is computed. *)
Record scheme := Scheme { sc_ev : evaluator F; sc_commitments : omapT C }.
Variables (committable : seq {poly F} -> bool) (commit_polys : seq {poly F} -> C).
Definition sc_append (s : scheme) (k : nat) (ps : seq {poly F}) : option scheme :=
  olet ev <- append_all_to_batch (sc_ev s) k ps; Some (Scheme ev (sc_commitments s)).
Definition sc_commit (s : scheme) (k : nat) : option (C * scheme) :=
  let ev := state_commited (sc_ev s) k in
  let ps := odflt [::] (om_get (ev_polys ev) k) in
  oguard committable ps;
  Some (commit_polys ps, Scheme ev (om_set (sc_commitments s) k (commit_polys ps))).
(** [preprocess(transcript)], [setup(transcript, data)], [proof_eval(transcript)] and [verify_eval(proof, commitments,
    transcript)] of the scheme; [X] is what [setup] adds to the state, [P] the part of an opening proof besides the values *)
Variables (D X P : Type) (scheme_preprocess : scheme -> T -> D) (scheme_setup : T -> D -> X * T)
  (scheme_proof_eval : X -> scheme -> T -> option ((eval_storage F * P) * T))
  (scheme_verify_eval : X -> scheme -> eval_storage F * P -> omapT C -> T -> option (bool * T)).

(** ** The preprocessor *)
(** preprocessor.hpp:127-229. [lagrange_0], [Z] and the domain are functions of the number of rows. *)
Record common_data := CommonData { cd_fixed_values : C; cd_columns_rotations : seq (seq int); cd_desc : table_description;
  cd_max_gates_degree : nat; cd_vk_hash : H; cd_scheme_data : D; cd_permuted_columns : seq nat;
  cd_max_quotient_chunks : nat; cd_permutation_parts : nat; cd_lookup_parts : nat }.
(** preprocessor.hpp:255-265 *)
Record preprocessed_data := PreprocessedData { pp_public_inputs : seq {poly F}; pp_constants : seq {poly F};
  pp_selectors : seq {poly F}; pp_permutation_polynomials : seq {poly F}; pp_identity_polynomials : seq {poly F};
  pp_q_last : {poly F}; pp_q_blind : {poly F}; pp_common : common_data }.
(** preprocessor.hpp:186-188 *)
Definition vanishing_polynomial (rows : nat) : {poly F} := 'X^rows - 1.

(** preprocessor.hpp:524-528, permutation_argument.hpp:87-91 *)
Definition permuted_global_indices (cs : constraint_system F) (d : table_description) : option (seq nat) :=
  omapM (global_index d) (iteration (permuted_set (cs_copy_constraints cs))).

(** preprocessor.hpp:494-611 [process]. [hash] is the hash of the constraint system with the parameters (571-579). *)
Definition placeholder_preprocess (cs : constraint_system F) (public : plonk_public_table F) (d : table_description)
  (s : scheme) (chunks : nat) (delta : F) (hash : H) : option (preprocessed_data * scheme) :=
  let rows := td_rows d in
  let usable := td_usable_rows d in
  let max_gates_degree := maxn (gates_degree (cs_gates cs)) (max_lookup_gates_degree (cs_lookup_gates cs)) in
  oguard (0 < max_gates_degree)%N;
  olet permutation <- cycle_representation d (cs_copy_constraints cs);
  olet global_indices <- permuted_global_indices cs d;
  let id_perm := identity_polynomials omega rows (size global_indices) delta in
  olet sigma_perm <- permutation_polynomials omega rows global_indices delta permutation;
  let q_last := lagrange_polynomial omega rows usable in
  let q_blind := selector_blind omega rows usable in
  olet public_inputs <- omapM (column_polynomial_dfs omega rows) (pu_public_inputs public);
  olet constants <- omapM (column_polynomial_dfs omega rows) (pu_constants public);
  olet selectors <- omapM (column_polynomial_dfs omega rows) (pu_selectors public);
  oguard (chunks == 0%N) || (max_gates_degree < chunks)%N;
  olet permutation_parts <- permutation_partitions_num (size global_indices) chunks;
  let lookup_parts_num := size (lookup_parts (cs_lookup_gates cs) (cs_lookup_tables cs) chunks) in
  olet s <- sc_append s FIXED_VALUES_BATCH id_perm;
  olet s <- sc_append s FIXED_VALUES_BATCH sigma_perm;
  olet s <- sc_append s FIXED_VALUES_BATCH [:: q_last];
  olet s <- sc_append s FIXED_VALUES_BATCH [:: q_blind];
  olet s <- sc_append s FIXED_VALUES_BATCH constants;
  olet s <- sc_append s FIXED_VALUES_BATCH selectors;
  olet cs_s <- sc_commit s FIXED_VALUES_BATCH;
  let: (fixed, s) := cs_s in
  olet rotations <- columns_rotations cs d;
  let tr := absorb (absorb_hash tr_start hash) fixed in
  Some (PreprocessedData public_inputs constants selectors sigma_perm id_perm q_last q_blind
    (CommonData fixed rotations d max_gates_degree hash (scheme_preprocess s tr) global_indices chunks permutation_parts lookup_parts_num), s).

(** ** Evaluation points
    A call [append_eval_point(batch, point)] or [append_eval_point(batch, polynomial, point)]. *)
Definition point_call := (nat * option nat * F)%type.
Definition append_point (ev : evaluator F) (c : point_call) : option (evaluator F) :=
  if c.1.2 is Some i then append_eval_points_to ev c.1.1 i [:: c.2] else append_eval_points ev c.1.1 [:: c.2].
(** prover.hpp:355-369, 402-416; verifier.hpp:80-94, 125-139: one column. [omega.pow(rotation)] is the power with an integer
    exponent. *)
Definition rotation_calls (y : F) (batch i : nat) (rotations : seq int) : seq point_call :=
  [seq (batch, Some i, y * omega ^ r) | r <- rotations].
(** prover.hpp:346-417 and verifier.hpp:62-140 [generate_evaluation_points] as the list of calls. The two functions differ in
    [start_index] (prover.hpp:391-392, verifier.hpp:115) and in the number of selectors (prover.hpp:403, verifier.hpp:126). *)
Definition evaluation_calls (cd : common_data) (cs : constraint_system F) (d : table_description) (start_index selectors : nat) (y : F)
  : option (seq point_call) :=
  let copy := size (cs_copy_constraints cs) != 0%N in
  let lookup := size (cs_lookup_gates cs) != 0%N in
  olet vs <- omapM (fun i => omap (rotation_calls y VARIABLE_VALUES_BATCH i) (vget (cd_columns_rotations cd) i))
    (iota 0 (td_witness d + td_public_input d));
  olet fs <- omapM (fun ind => omap (rotation_calls y FIXED_VALUES_BATCH (start_index + ind))
      (vget (cd_columns_rotations cd) (td_witness d + td_public_input d + ind)))
    (iota 0 (td_constant d + selectors));
  Some (flatten vs ++
    (if lookup || copy then [:: (PERMUTATION_BATCH, None, y)] else [::]) ++
    (if copy then [:: (PERMUTATION_BATCH, Some 0%N, y * omega)] else [::]) ++
    (if lookup then [:: (PERMUTATION_BATCH, Some (cd_permutation_parts cd), y * omega); (LOOKUP_BATCH, None, y);
        (LOOKUP_BATCH, None, y * omega); (LOOKUP_BATCH, None, y * omega ^+ td_usable_rows (cd_desc cd))] else [::]) ++
    [:: (QUOTIENT_BATCH, None, y)] ++
    [seq (FIXED_VALUES_BATCH, Some i, y) | i <- iota 0 start_index] ++
    [:: (FIXED_VALUES_BATCH, Some (start_index - 2)%N, y * omega); (FIXED_VALUES_BATCH, Some (start_index - 1)%N, y * omega)] ++
    flatten fs).
Definition generate_evaluation_points (cd : common_data) cs d (start_index selectors : nat) (y : F) (s : scheme) : option scheme :=
  olet calls <- evaluation_calls cd cs d start_index selectors y;
  olet ev <- ofold append_point (sc_ev s) calls;
  Some (Scheme ev (sc_commitments s)).
Definition prover_evaluation_points (pp : preprocessed_data) cs d (y : F) (s : scheme) : option scheme :=
  generate_evaluation_points (pp_common pp) cs d (size (pp_identity_polynomials pp) + size (pp_permutation_polynomials pp) + 2)%N
    (size (pp_selectors pp)) y s.
Definition verifier_evaluation_points (cd : common_data) cs d (y : F) (s : scheme) : option scheme :=
  generate_evaluation_points cd cs d (size (cd_permuted_columns cd) * 2 + 2)%N (td_selector d) y s.

(** ** The prover *)
Record proof := Proof { pf_commitments : omapT C; pf_challenge : F; pf_eval_proof : eval_storage F * P }.

(** prover.hpp:126-127 and verifier.hpp:194-195 *)
Definition initial_transcript (cd : common_data) : T := absorb (absorb_hash tr_start (cd_vk_hash cd)) (cd_fixed_values cd).
(** prover.hpp:117-119, 636-637 *)
Definition prover_table (pp : preprocessed_data) (witnesses : seq {poly F}) : polynomial_table F :=
  PolynomialTable witnesses (pp_public_inputs pp) (pp_constants pp) (pp_selectors pp).
Definition table_columns (pt : polynomial_table F) : seq {poly F} :=
  pl_witnesses pt ++ pl_public_inputs pt ++ pl_constants pt ++ pl_selectors pt.

(** prover.hpp:145-158 *)
Definition prover_permutation (pp : preprocessed_data) (pt : polynomial_table F) cs (d : table_description) (s : scheme) (tr : T)
  : option (seq {poly F} * scheme * T) :=
  let cd := pp_common pp in
  if size (cs_copy_constraints cs) != 0%N then
    olet global_indices <- permuted_global_indices cs d;
    olet cols <- omapM (vget (table_columns pt)) global_indices;
    olet r <- perm_prove_eval omega (td_rows (cd_desc cd)) challenge
      (PermData (pp_identity_polynomials pp) (pp_permutation_polynomials pp) (pp_q_last pp) (pp_q_blind pp)
         (lagrange_polynomial omega (td_rows (cd_desc cd)) 0) (cd_max_quotient_chunks cd) (cd_permutation_parts cd) (td_usable_rows (cd_desc cd))) cols tr;
    let: (Fs, batch, tr) := r in
    olet s <- sc_append s PERMUTATION_BATCH batch;
    Some (Fs, s, tr)
  else Some ([:: 0; 0; 0], s, tr).
(** prover.hpp:160-167, 285-312; the commitments of the proof are extended with that of the lookup batch *)
Definition prover_lookup (pp : preprocessed_data) (pt : polynomial_table F) cs (s : scheme) (commitments : omapT C) (tr : T)
  : option (seq {poly F} * scheme * omapT C * T) :=
  let cd := pp_common pp in
  if size (cs_lookup_gates cs) != 0%N then
    olet r <- lookup_prove_eval omega (td_rows (cd_desc cd)) challenge absorb commit_polys
      (LookupData (cs_lookup_gates cs) (cs_lookup_tables cs) (pp_q_last pp) (pp_q_blind pp)
         (lagrange_polynomial omega (td_rows (cd_desc cd)) 0) (cd_max_quotient_chunks cd) (td_usable_rows (cd_desc cd))) pt tr;
    let: (res, tr) := r in
    olet s <- sc_append s LOOKUP_BATCH (lr_sorted res);
    olet cs_s <- sc_commit s LOOKUP_BATCH;
    let: (c, s) := cs_s in
    olet s <- sc_append s PERMUTATION_BATCH (lr_V_L res :: lr_parts res);
    Some (lr_F res, s, om_set commitments LOOKUP_BATCH c, tr)
  else Some ([:: 0; 0; 0; 0], s, commitments, tr).
(** prover.hpp:220-283: eight challenges, the quotient and its chunks *)
Definition prover_quotient (pp : preprocessed_data) cs (d : table_description) (Fs : seq {poly F}) (tr : T) : option (seq {poly F} * T) :=
  let cd := pp_common pp in
  let (alphas, tr) := draw challenge 8 tr in
  let q := quotient_polynomial alphas Fs (vanishing_polynomial (td_rows (cd_desc cd))) in
  let split_size := split_polynomial_size (td_rows (cd_desc cd)) (size (pp_identity_polynomials pp)) (lookup_poly_degree_bound cs)
    (cd_max_gates_degree cd) (cd_max_quotient_chunks cd) in
  olet chunks <- quotient_chunks (coefficients q) (td_rows d) split_size;
  Some (chunks, tr).

(** prover.hpp:121-207: the prover up to the challenge [y] *)
Record prover_state := ProverState { ps_data : X; ps_scheme : scheme; ps_commitments : omapT C; ps_challenge : F; ps_transcript : T }.
Definition placeholder_commit (pp : preprocessed_data) (witnesses : seq {poly F}) (d : table_description) cs (s : scheme) : option prover_state :=
  let cd := pp_common pp in
  let pt := prover_table pp witnesses in
  let copy := size (cs_copy_constraints cs) != 0%N in
  let lookup := size (cs_lookup_gates cs) != 0%N in
  let (data, tr) := scheme_setup (initial_transcript cd) (cd_scheme_data cd) in
  olet s <- sc_append s VARIABLE_VALUES_BATCH (pl_witnesses pt);
  olet s <- sc_append s VARIABLE_VALUES_BATCH (pl_public_inputs pt);
  olet c_s <- sc_commit s VARIABLE_VALUES_BATCH;
  let: (c, s) := c_s in
  let commitments := om_set [::] VARIABLE_VALUES_BATCH c in
  let tr := absorb tr c in
  olet r <- prover_permutation pp pt cs d s tr;
  let: (F_perm, s, tr) := r in
  olet r <- prover_lookup pp pt cs s commitments tr;
  let: (F_lookup, s, commitments, tr) := r in
  olet r <- (if copy || lookup then
      olet c_s <- sc_commit s PERMUTATION_BATCH;
      Some (c_s.2, om_set commitments PERMUTATION_BATCH c_s.1, absorb tr c_s.1)
    else Some (s, commitments, tr));
  let: (s, commitments, tr) := r in
  olet r <- gates_prove_eval omega challenge (cs_gates cs) pt (N.of_nat (cd_max_gates_degree cd)) (1 - pp_q_last pp - pp_q_blind pp) tr;
  let: (F_gates, tr) := r in
  olet r <- prover_quotient pp cs d (F_perm ++ F_lookup ++ [:: F_gates]) tr;
  let: (chunks, tr) := r in
  olet s <- sc_append s QUOTIENT_BATCH chunks;
  olet c_s <- sc_commit s QUOTIENT_BATCH;
  let: (c, s) := c_s in
  let commitments := om_set commitments QUOTIENT_BATCH c in
  let (y, tr) := challenge (absorb tr c) in
  Some (ProverState data s commitments y tr).
(** prover.hpp:207-217 *)
Definition placeholder_open (pp : preprocessed_data) (d : table_description) cs (st : prover_state) : option proof :=
  olet s <- prover_evaluation_points pp cs d (ps_challenge st) (ps_scheme st);
  olet r <- scheme_proof_eval (ps_data st) s (ps_transcript st);
  Some (Proof (ps_commitments st) (ps_challenge st) r.1).
(** prover.hpp:94-217 [process] *)
Definition placeholder_prove (pp : preprocessed_data) (witnesses : seq {poly F}) (d : table_description) cs (s : scheme) : option proof :=
  olet st <- placeholder_commit pp witnesses d cs s; placeholder_open pp d cs st.

(** ** The verifier *)
(** detail/polynomial/eval_storage.hpp:69-85: [get], [get_batch_size] *)
Definition z_get (z : eval_storage F) (k i j : nat) : option F := olet b <- om_get z k; olet p <- vget b i; vget p j.
Definition z_size (z : eval_storage F) (k : nat) : option nat := omap size (om_get z k).
(** verifier.hpp:222-236: the value of a permuted column; 223-229: the position of rotation zero *)
Definition permuted_value (z : eval_storage F) (rotations : seq (seq int)) (variables permutation_size i : nat) : option F :=
  olet rs <- vget rotations i;
  let zero_index := find (fun v => v == 0) rs in
  if (i < variables)%N then z_get z VARIABLE_VALUES_BATCH i zero_index
  else z_get z FIXED_VALUES_BATCH (i - variables + permutation_size * 2 + 2)%N zero_index.
(** verifier.hpp:258-310: the evaluation map; one column [i] of type [ct], the polynomial [pi] of batch [k] *)
Notation ev_set := (hm_set (@eq_op [eqType of evaluation_key])).
Definition add_column (z : eval_storage F) (k pi i : nat) (ct : column_type) (rs : seq int) (m : evaluation_map F) : option (evaluation_map F) :=
  ofold (fun m (jr : nat * int) => olet x <- z_get z k pi jr.1; Some (ev_set m (i, jr.2, ct) x)) m (zip (iota 0 (size rs)) rs).
Definition add_columns (z : eval_storage F) (rotations : seq (seq int)) (k offset global : nat) (ct : column_type) (n : nat) (m : evaluation_map F)
  : option (evaluation_map F) :=
  ofold (fun m i => olet rs <- vget rotations (global + i)%N; add_column z k (offset + i)%N i ct rs m) m (iota 0 n).
Definition columns_at_y (z : eval_storage F) (rotations : seq (seq int)) (d : table_description) (permutation_size : nat) : option (evaluation_map F) :=
  let w := td_witness d in let p := td_public_input d in let c := td_constant d in
  olet m <- add_columns z rotations VARIABLE_VALUES_BATCH 0 0 CWitness w [::];
  olet m <- add_columns z rotations VARIABLE_VALUES_BATCH w w CPublicInput p m;
  olet m <- add_columns z rotations FIXED_VALUES_BATCH (permutation_size * 2 + 2) (w + p) CConstant c m;
  add_columns z rotations FIXED_VALUES_BATCH (permutation_size * 2 + 2 + c) (w + p + c) CSelector (td_selector d) m.

(** verifier.hpp:211-256 *)
Definition verifier_permutation (cd : common_data) cs (d : table_description) (z : eval_storage F) (permutation_size : nat) (y q_last q_blind : F) (tr : T)
  : option (seq F * T) :=
  if size (cs_copy_constraints cs) != 0%N then
    olet S_id <- omapM (fun i => z_get z FIXED_VALUES_BATCH i 0) (iota 0 permutation_size);
    olet S_sigma <- omapM (fun i => z_get z FIXED_VALUES_BATCH (permutation_size + i)%N 0) (iota 0 permutation_size);
    olet f <- omapM (fun perm_i => olet i <- vget (cd_permuted_columns cd) perm_i;
        permuted_value z (cd_columns_rotations cd) (td_witness d + td_public_input d) permutation_size i) (iota 0 permutation_size);
    olet partitions <- omapM (fun i => z_get z PERMUTATION_BATCH i 0) (iota 1 (cd_permutation_parts cd - 1));
    olet vp <- z_get z PERMUTATION_BATCH 0 0;
    olet vp_shifted <- z_get z PERMUTATION_BATCH 0 1;
    perm_verify_eval challenge (cd_max_quotient_chunks cd) (cd_permutation_parts cd) (lagrange_polynomial omega (td_rows (cd_desc cd)) 0)
      S_id S_sigma q_last q_blind y f vp vp_shifted partitions tr
  else Some ([:: 0; 0; 0], tr).
(** verifier.hpp:312-337; the argument takes the evaluation map by value (lookup_argument.hpp:664) *)
Definition verifier_lookup (cd : common_data) cs (z : eval_storage F) (commitments : omapT C) (special_selector_values : seq F)
  (columns : evaluation_map F) (tr : T) : option (seq F * evaluation_map F * T) :=
  if size (cs_lookup_gates cs) != 0%N then
    let n := size (cd_permuted_columns cd) in
    olet q_last_shifted <- z_get z FIXED_VALUES_BATCH (2 * n) 1;
    olet q_blind_shifted <- z_get z FIXED_VALUES_BATCH (2 * n + 1) 1;
    olet parts_values <- omapM (fun i => z_get z PERMUTATION_BATCH i 0) (iota (cd_permutation_parts cd + 1) (cd_lookup_parts cd - 1));
    olet sorted <- om_get z LOOKUP_BATCH;
    olet permutation_batch <- om_get z PERMUTATION_BATCH;
    olet V_L <- vget permutation_batch (cd_permutation_parts cd);
    olet c <- om_get commitments LOOKUP_BATCH;
    lookup_verify_eval challenge absorb (cs_lookup_gates cs) (cs_lookup_tables cs) (cd_max_quotient_chunks cd)
      special_selector_values [:: q_last_shifted; q_blind_shifted] columns sorted V_L parts_values c tr
  else Some ([:: 0; 0; 0; 0], columns, tr).
(** verifier.hpp:361-366 *)
Definition verifier_batch_sizes cs (z : eval_storage F) (s : scheme) : option scheme :=
  let copy := size (cs_copy_constraints cs) != 0%N in
  let lookup := size (cs_lookup_gates cs) != 0%N in
  let set_size s k := olet n <- z_size z k; Some (Scheme (set_batch_size (sc_ev s) k n) (sc_commitments s)) in
  olet s <- set_size s VARIABLE_VALUES_BATCH;
  olet s <- (if lookup || copy then set_size s PERMUTATION_BATCH else Some s);
  olet s <- set_size s QUOTIENT_BATCH;
  if lookup then set_size s LOOKUP_BATCH else Some s.

(** verifier.hpp:180-400 [process]. The assertion at 359 is a guard; so is the subtraction at 210, which must not wrap. *)
Definition placeholder_verify (cd : common_data) (pf : proof) (d : table_description) cs (s : scheme) : option bool :=
  let copy := size (cs_copy_constraints cs) != 0%N in
  let lookup := size (cs_lookup_gates cs) != 0%N in
  let rows := td_rows (cd_desc cd) in
  let z := (pf_eval_proof pf).1 in
  let y := pf_challenge pf in
  let n := size (cd_permuted_columns cd) in
  let (data, tr) := scheme_setup (initial_transcript cd) (cd_scheme_data cd) in
  olet c <- om_get (pf_commitments pf) VARIABLE_VALUES_BATCH;
  let tr := absorb tr c in
  let l0 := (lagrange_polynomial omega rows 0).[y] in
  olet q_last <- z_get z FIXED_VALUES_BATCH (2 * n) 0;
  olet q_blind <- z_get z FIXED_VALUES_BATCH (2 * n + 1) 0;
  olet fixed_size <- z_size z FIXED_VALUES_BATCH;
  oguard (2 + td_constant d + td_selector d <= fixed_size)%N;
  let permutation_size := ((fixed_size - 2 - td_constant d - td_selector d) %/ 2)%N in
  olet r <- verifier_permutation cd cs d z permutation_size y q_last q_blind tr;
  let: (F_perm, tr) := r in
  olet columns <- columns_at_y z (cd_columns_rotations cd) d permutation_size;
  olet r <- verifier_lookup cd cs z (pf_commitments pf) [:: l0; q_last; q_blind] columns tr;
  let: (F_lookup, _, tr) := r in
  olet tr <- (if copy || lookup then olet c <- om_get (pf_commitments pf) PERMUTATION_BATCH; Some (absorb tr c) else Some tr);
  olet r <- gates_verify_eval challenge (cs_gates cs) columns (1 - q_last - q_blind) tr;
  let: (F_gates, tr) := r in
  let (alphas, tr) := draw challenge 8 tr in
  olet c <- om_get (pf_commitments pf) QUOTIENT_BATCH;
  let (transcript_y, tr) := challenge (absorb tr c) in
  oguard transcript_y == y;
  olet s <- verifier_batch_sizes cs z s;
  olet s <- verifier_evaluation_points cd cs d transcript_y s;
  let commitments := om_set (pf_commitments pf) FIXED_VALUES_BATCH (cd_fixed_values cd) in
  olet r <- scheme_verify_eval data s (pf_eval_proof pf) commitments tr;
  if ~~ r.1 then Some false else
  let F_consolidated := foldl (fun acc aF => acc + aF.1 * aF.2) 0 (zip alphas (F_perm ++ F_lookup ++ [:: F_gates])) in
  olet qs <- om_get z QUOTIENT_BATCH;
  olet ts <- omapM (fun q => vget q 0) qs;
  Some (F_consolidated == (vanishing_polynomial rows).[transcript_y] * recombine rows transcript_y ts).

(** verifier.hpp:161-176: the check of one column of public inputs *)
Definition public_input_value (rows : nat) (y : F) (values : seq F) : F :=
  let numerator := (y ^+ rows - 1) * (rows%:R)^-1 in
  (foldl (fun st x => (st.1 + (x * st.2) * (y - st.2)^-1, st.2 * omega)) (0, 1) values).1 * numerator.
Definition check_public_input cs (d : table_description) (z : eval_storage F) (y : F) (i : nat) (values : seq F) : option bool :=
  olet max_size <- (if size (cs_public_input_sizes cs) != 0%N then omap (minn (size values)) (vget (cs_public_input_sizes cs) i) else Some (size values));
  olet x <- z_get z VARIABLE_VALUES_BATCH (td_witness d + i) 0;
  Some (public_input_value (td_rows d) y (take max_size values) == x).
(** verifier.hpp:142-178 [process] with public inputs *)
Definition placeholder_verify_public (cd : common_data) (pf : proof) (d : table_description) cs (s : scheme) (public_input : seq (seq F)) : option bool :=
  let n := size (cs_public_input_sizes cs) in
  if (n != 0%N) && (n != td_public_input d) then Some false else
  olet ok <- ofold (fun (ok : bool) (iv : nat * seq F) =>
      if ok then check_public_input cs d (pf_eval_proof pf).1 (pf_challenge pf) iv.1 iv.2 else Some false)
    true (zip (iota 0 (size public_input)) public_input);
  if ok then placeholder_verify cd pf d cs s else Some false.
End Placeholder.
