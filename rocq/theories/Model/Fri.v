(** Model of commitments/detail/polynomial/basic_fri.hpp (FRI::m = 2, the only value the algorithms support).
    [std::size_t] values are naturals. [None]: undefined behaviour (index out of range), a failed assertion or an
    exception. *)
From mathcomp Require Import all_ssreflect all_algebra.
From Verif.Model Require Import Base OrderedMap Domain FoldPolynomial MerkleTree Quotient.
Set Implicit Arguments.
Unset Strict Implicit.
Unset Printing Implicit Defensive.
Import GRing.Theory.
Local Open Scope ring_scope.

(** [if (!b) return false; f] *)
Notation "'ocheck' b ; f" := (if b then f else Some false) (at level 200, b at level 100, f at level 200,
  right associativity, only parsing).

(** ** Indices *)
Section Indices.
Local Open Scope nat_scope.
(** basic_fri.hpp:349-351 *)
Definition get_paired_index (x n : nat) : nat := (x + n %/ 2) %% n.

(** 389-404, 476-490, 598-611, 626-637: the loop that fills [s_indices[i][0]] from [s_indices[0][0]]; the second entries are
    the paired indices. [fuel] bounds the number of rounds of the while loop (each doubles the number of entries). *)
Fixpoint index_loop (fuel n half base prev : nat) (s : seq nat) : seq nat :=
  if fuel is fuel'.+1 then
    if size s < half then index_loop fuel' n half (base %/ 2) (prev * 2) (s ++ [seq (base + a) %% n | a <- take prev s])
    else s
  else s.
(** [None]: [fri_step = 0] writes to an empty vector *)
Definition coset_indices (n step x : nat) : option (seq nat) :=
  oguard 0 < step;
  Some (index_loop step n (2 ^ step %/ 2) (n %/ (2 * 2)) 1 [:: x]).

(** 535-542 *)
Fixpoint get_folded_index (x n step : nat) : nat :=
  if step is step'.+1 then get_folded_index (x %% (n %/ 2)) (n %/ 2) step' else x.

(** 618-664; only the first component of each pair is used by the callers. The input pairs are (index, paired index);
    [None]: not found (assertion). *)
Definition get_correct_order (x n step : nat) (input : seq (nat * nat)) : option (seq nat) :=
  olet ordered <- coset_indices n step (get_folded_index x n step);
  oguard 2 ^ step %/ 2 == size input;
  omapM (fun c => let paired := get_paired_index c n in
    let i := find (fun v : nat * nat => (v.1 == c) && (v.2 == paired) || (v.2 == c) && (v.1 == paired)) input in
    oguard i < size input; Some i) ordered.
End Indices.

Section Fri.
Variable F : fieldType.
(** Merkle tree: digests, hash of a leaf (a vector of field elements), hash of two digests *)
Variables (Dg : eqType) (hash_leaf : seq F -> Dg) (hash_node : Dg -> Dg -> Dg).
(** Transcript: absorbing a digest, drawing a field element *)
Variables (T : Type) (absorb : T -> Dg -> T) (challenge : T -> F * T).
(** FRI::grinding_type (see Model/ProofOfWork.v) *)
Variables (Pw : Type) (grind : T -> nat -> option (Pw * T)) (grind_verify : T -> Pw -> nat -> bool * T).
(** FRI::field_type::modulus *)
Variable modulus : nat.
(** crypto3-math: the root of unity of a domain of this size *)
Variable unity_root : nat -> F.

(** crypto3-math [make_evaluation_domain], for sizes that are powers of two: the list of its elements *)
Definition make_domain (n : nat) : seq F := [seq unity_root n ^+ i | i <- iota 0 n].
(** crypto3-math [calculate_domain_set]: domains of sizes 2^k, 2^(k-1), ... *)
Definition calculate_domain_set (k n : nat) : seq (seq F) := [seq make_domain (2 ^ (k - t)) | t <- iota 0 n].

(** 109-238 (expand_factor is not used by FRI) *)
Record fri_params := FriParams {
  fp_lambda : nat; fp_use_grinding : bool; fp_grinding_parameter : nat; fp_max_degree : nat; fp_D : seq (seq F);
  fp_r : nat; fp_step_list : seq nat }.
(** 168-183: the constructor from a step list *)
Definition fri_params_of (step_list : seq nat) (degree_log lambda expand_factor : nat) (use_grinding : bool) (grinding : nat) :=
  FriParams lambda use_grinding grinding (2 ^ degree_log - 1)
    (calculate_domain_set (degree_log + expand_factor) (sumn step_list)) (sumn step_list) step_list.

(** 545-570 *)
Definition check_step_list (P : fri_params) : bool :=
  if fp_step_list P is [::] then false else
  [&& all (fun s => 0 < s)%N (fp_step_list P), all (fun s => s <= 10)%N (fp_step_list P), sumn (fp_step_list P) == fp_r P &
      last 0%N (fp_step_list P) == 1%N].

(** The template parameter PolynomialType: coefficients or values on a domain *)
Inductive fpoly := Coef of seq F | Dfs of seq F.
(** crypto3-math: the polynomial (without leading zeros) with these values on the domain of their number *)
Definition dfs_coefficients (v : seq F) : seq F := coefficients (Poly (inverse_fft (make_domain (size v)) v)).

(** 369-371, 427-430, 451-455, 518-521: the values on [D]. [None]: the polynomial does not fit (crypto3-math asserts) *)
Definition on_domain (f : fpoly) (D : seq F) : option (seq F) :=
  match f with
  | Coef c => oguard (size c <= size D)%N; Some (fft D c)
  | Dfs v => if size v == size D then Some v else
      oguard (size v <= size D)%N; Some (fft D (dfs_coefficients v))
  end.

(** containers::merkle_tree over leaves of field elements (Model/MerkleTree.v); [None]: not a power of two *)
Record tree := Tree { tr_depth : nat; tr_leaves : seq (seq F) }.
Definition make_merkle_tree (leaves : seq (seq F)) : option tree :=
  oguard size leaves == (2 ^ trunc_log 2 (size leaves))%N;
  Some (Tree (trunc_log 2 (size leaves)) leaves).
Definition tr_leaf (t : tree) (i : nat) : Dg := hash_leaf (nth [::] (tr_leaves t) i).
(** 324-326 [commit] *)
Definition tr_root (t : tree) : Dg := merkle_root hash_node (tr_depth t) (tr_leaf t).

(** 381-404, 466-491: the values consumed for one polynomial and one leaf *)
Definition leaf_values (v : seq F) (step x : nat) : option (seq F) :=
  olet s <- coset_indices (size v) step x;
  omap flatten (omapM (fun a => olet y0 <- vget v a; olet y1 <- vget v (get_paired_index a (size v)); Some [:: y0; y1]) s).
(** 364-409, 421-431: [precommit] of one polynomial; 445-524: of several *)
Definition precommit_values (vs : seq (seq F)) (n step : nat) : option tree :=
  olet leaves <- omapM (fun x => omap flatten (omapM (fun v => leaf_values v step x) vs)) (iota 0 (n %/ 2 ^ step));
  make_merkle_tree leaves.
Definition precommit (f : fpoly) (D : seq F) (step : nat) : option tree :=
  olet v <- on_domain f D; precommit_values [:: v] (size D) step.
Definition precommit_batch (fs : seq fpoly) (D : seq F) (step : nat) : option tree :=
  olet vs <- omapM (fun f => on_domain f D) fs; precommit_values vs (size D) step.

(** containers::merkle_proof: the root, the position of the leaf and the siblings. [validate] gets only the leaf: root and
    position are those of the proof. *)
Record merkle_proof := MerkleProof { mp_root : Dg; mp_position : nat; mp_path : seq Dg }.
Definition mp_validate (p : merkle_proof) (leaf : seq F) : bool :=
  merkle_verify hash_node (size (mp_path p)) (mp_root p) (mp_position p) (hash_leaf leaf) (mp_path p).
(** 528-532 *)
Definition make_proof_specialized (x n : nat) (t : tree) : option merkle_proof :=
  let i := minn x (get_paired_index x n) in
  oguard (i < 2 ^ tr_depth t)%N;
  Some (MerkleProof (tr_root t) i (merkle_path hash_node (tr_depth t) (tr_leaf t) i)).

(** 240-297 *)
Record round_proof := RoundProof { rp_y : seq (F * F); rp_p : merkle_proof }.
Record initial_proof := InitialProof { ip_values : seq (seq (F * F)); ip_p : merkle_proof }.
Record query_proof := QueryProof { qp_initial : omapT initial_proof; qp_rounds : seq round_proof }.
Record fri_proof := FriProof { pf_roots : seq Dg; pf_final : seq F; pf_queries : seq query_proof; pf_pow : option Pw }.

(** 583-614: pairs of elements and pairs of indices. The code asserts that the first element is [x]. *)
Definition calculate_s (x : F) (x_index step : nat) (D : seq F) : option (seq (F * F) * seq (nat * nat)) :=
  olet idx <- coset_indices (size D) step x_index;
  let pairs := [seq (a, get_paired_index a (size D)) | a <- idx] in
  olet s <- omapM (fun ab : nat * nat => olet e0 <- vget D ab.1; olet e1 <- vget D ab.2; Some (e0, e1)) pairs;
  olet first <- vget s 0;
  oguard first.1 == x; Some (s, pairs).

(** ** The prover *)
(** 723-729 *)
Definition fold_poly (f : fpoly) (alpha : F) (D : seq F) : option fpoly :=
  match f with
  | Coef c => omap Coef (fold_coefficients c alpha)
  | Dfs v => omap Dfs (fold_dfs v alpha D)
  end.
(** 720-730 *)
Fixpoint fold_steps (D : seq (seq F)) (n : nat) (f : fpoly) (t : nat) (tr : T) : option (seq F * fpoly * T) :=
  if n is n'.+1 then
    let (alpha, tr) := challenge tr in
    olet d <- vget D t; olet f' <- fold_poly f alpha d;
    olet r <- fold_steps D n' f' t.+1 tr; let: (alphas, f'', tr) := r in Some (alpha :: alphas, f'', tr)
  else Some ([::], f, tr).
(** 715-734: [fs] with [fri_trees], the challenges and the last [f] *)
Fixpoint commit_phase (D : seq (seq F)) (sl : seq nat) (f : fpoly) (tree0 : tree) (t : nat) (tr : T) :
    option (seq (fpoly * tree) * seq F * fpoly * T) :=
  if sl is step :: sl' then
    olet r <- fold_steps D step f t (absorb tr (tr_root tree0)); let: (alphas, f', tr) := r in
    if sl' is step' :: _ then
      olet d <- vget D (t + step); olet tree' <- precommit f' d step';
      olet r <- commit_phase D sl' f' tree' (t + step) tr; let: (fts, alphas', f'', tr) := r in
      Some ((f, tree0) :: fts, alphas ++ alphas', f'', tr)
    else Some ([:: (f, tree0)], alphas, f', tr)
  else Some ([::], [::], f, tr).
(** 735-740 *)
Definition final_polynomial (f : fpoly) : seq F := match f with Coef c => c | Dfs v => dfs_coefficients v end.

(** 809-853: values of one polynomial of a batch at a pair of points, smaller index first *)
Definition initial_value (f : fpoly) (D : seq F) (s : F * F) (ab : nat * nat) : option (F * F) :=
  let at_points c := let: (s0, s1) := if (ab.1 < ab.2)%N then (s.1, s.2) else (s.2, s.1) in Some (peval c s0, peval c s1) in
  match f with
  | Coef c => at_points c
  | Dfs v => if size v == size D then
      olet y0 <- vget v (minn ab.1 ab.2); olet y1 <- vget v (maxn ab.1 ab.2); Some (y0, y1)
    else at_points (dfs_coefficients v)
  end.
(** 795-861 *)
Definition prove_initial (D : seq F) (step x_index : nat) (s : seq (F * F)) (pairs : seq (nat * nat))
    (g : omapT (seq fpoly)) (trees : omapT tree) : option (omapT initial_proof) :=
  omapM (fun kg : nat * seq fpoly =>
    olet values <- omapM (fun f => omapM (fun sp : (F * F) * (nat * nat) => initial_value f D sp.1 sp.2) (zip s pairs)) kg.2;
    olet t <- om_get trees kg.1;
    olet p <- make_proof_specialized (get_folded_index x_index (size D) step) (size D) t;
    Some (kg.1, InitialProof values p)) g.
(** 889-902 *)
Definition round_value (f : fpoly) (s : F * F) (ab : nat * nat) : option (F * F) :=
  match f with
  | Dfs v => olet y0 <- vget v (minn ab.1 ab.2); olet y1 <- vget v (maxn ab.1 ab.2); Some (y0, y1)
  | Coef c =>
      let s0 := if (ab.1 < ab.2)%N then s.1 else s.2 in
      let s1 := if (ab.1 > ab.2)%N then s.1 else s.2 in
      Some (peval c s0, peval c s1)
  end.
(** 867-920 *)
Fixpoint prove_rounds (D : seq (seq F)) (final : seq F) (sl : seq nat) (fts : seq (fpoly * tree)) (x_index t : nat) :
    option (seq round_proof) :=
  match sl, fts with
  | step :: sl', (_, tree0) :: fts' =>
    olet d <- vget D t;
    let x_index := (x_index %% size d)%N in
    olet p <- make_proof_specialized (get_folded_index x_index (size d) step) (size d) tree0;
    match sl', fts' with
    | step' :: _, (f', _) :: _ =>
      olet d' <- vget D (t + step);
      let x_index := (x_index %% size d')%N in
      olet x <- vget d' x_index;
      olet sp <- calculate_s x x_index step' d';
      olet y <- omapM (fun e : (F * F) * (nat * nat) => round_value f' e.1 e.2) (zip sp.1 sp.2);
      olet rest <- prove_rounds D final sl' fts' x_index (t + step);
      Some (RoundProof y p :: rest)
    | [::], [::] =>
      olet d' <- vget D (t + step - 1);
      let x_index := (x_index %% size d')%N in
      olet x <- vget d' x_index;
      let x := x * x in
      let y0 := peval final x in let y1 := peval final (- x) in
      let y := if (x_index %% (size d' %/ 2) < size d' %/ 4)%N then (y0, y1) else (y1, y0) in
      Some [:: RoundProof [:: y] p]
    | _, _ => None
    end
  | _, _ => None
  end.
(** 777-923: one query *)
Definition prove_query (P : fri_params) (g : omapT (seq fpoly)) (trees : omapT tree) (fts : seq (fpoly * tree)) (final : seq F)
    (c : F) : option query_proof :=
  olet D0 <- vget (fp_D P) 0;
  let x := c ^+ ((modulus - 1) %/ size D0)%N in
  let x_index := index x D0 in
  olet step <- vget (fp_step_list P) 0;
  olet sp <- calculate_s x x_index step D0;
  olet initial <- prove_initial D0 step x_index sp.1 sp.2 g trees;
  olet rounds <- prove_rounds (fp_D P) final (fp_step_list P) fts x_index 0;
  Some (QueryProof initial rounds).
Fixpoint prove_queries (P : fri_params) g trees fts final (n : nat) (tr : T) : option (seq query_proof * T) :=
  if n is n'.+1 then
    let (c, tr) := challenge tr in
    olet q <- prove_query P g trees fts final c;
    olet r <- prove_queries P g trees fts final n' tr; Some (q :: r.1, r.2)
  else Some ([::], tr).
(** 675-930 *)
Definition proof_eval (P : fri_params) (g : omapT (seq fpoly)) (combined_Q : fpoly) (trees : omapT tree) (tree_Q : tree) (tr : T) :
    option (fri_proof * T) :=
  oguard check_step_list P;
  olet r <- commit_phase (fp_D P) (fp_step_list P) combined_Q tree_Q 0 tr; let: (fts, _, f, tr) := r in
  let final := final_polynomial f in
  olet w <- (if fp_use_grinding P then omap (fun r => (Some r.1, r.2)) (grind tr (fp_grinding_parameter P)) else Some (None, tr));
  olet q <- prove_queries P g trees fts final (fp_lambda P) w.2;
  Some (FriProof [seq tr_root ft.2 | ft <- fts] final q.1 w.1, q.2).

(** ** The verifier *)
(** 956-962 *)
Fixpoint challenges (n : nat) (tr : T) : seq F * T :=
  if n is n'.+1 then
    let (alpha, tr) := challenge tr in let (alphas, tr) := challenges n' tr in (alpha :: alphas, tr)
  else ([::], tr).
Fixpoint round_challenges (sl : seq nat) (roots : seq Dg) (tr : T) : option (seq F * T) :=
  match sl, roots with
  | step :: sl', root :: roots' =>
    let (alphas, tr) := challenges step (absorb tr root) in
    olet r <- round_challenges sl' roots' tr; Some (alphas ++ r.1, r.2)
  | [::], _ => Some ([::], tr)
  | _, [::] => None
  end.

(** 994-1001, 1048-1054: one polynomial's values in the order of the leaf *)
Definition ordered_values (order : seq nat) (y : seq (F * F)) : option (seq F) :=
  omap flatten (omapM (fun i => olet e <- vget y i; Some [:: e.1; e.2]) order).
(** 988-1006 *)
Fixpoint check_initial (commitments : omapT Dg) (order : seq nat) (initial : omapT initial_proof) : option bool :=
  if initial is (k, ip) :: initial' then
    olet c <- om_get commitments k;
    ocheck mp_root (ip_p ip) == c;
    olet leaf <- omap flatten (omapM (ordered_values order) (ip_values ip));
    ocheck mp_validate (ip_p ip) leaf;
    check_initial commitments order initial'
  else Some true.

(** 1018-1038, at one point [x] with [value id] the value of the polynomial [id] there: the loops over the pairs of points are
    moved outside. [None]: [at] throws, an index is out of range, or a denominator vanishes at [x] ([inversed] of zero). *)
Definition combine_group (theta : F) (value : nat * nat -> option F) (ids : seq (nat * nat)) (acc : F) : option (F * F) :=
  ofold (fun (st : F * F) id => olet v <- value id; Some (st.1 + v * st.2, st.2 * theta)) (0, acc) ids.
Definition combine_point (theta : F) (poly_ids : seq (seq (nat * nat))) (U : seq F) (denominators : seq (seq F))
    (value : nat * nat -> option F) (x : F) : option F :=
  omap fst (ofold (fun (st : F * F) (e : seq (nat * nat) * (F * seq F)) =>
    olet q <- combine_group theta value e.1 st.2;
    let v := peval e.2.2 x in
    oguard v != 0;
    Some (st.1 + (q.1 - e.2.1) * v^-1, q.2)) (0, 1) (zip poly_ids (zip U denominators))).
(** 1009-1038 *)
Definition combine (theta : F) poly_ids U denominators (initial : omapT initial_proof) (s : seq (F * F)) (pairs : seq (nat * nat)) :
    option (seq (F * F)) :=
  let value (sel : F * F -> F) (j : nat) (id : nat * nat) : option F :=
    olet ip <- om_get initial id.1; olet vs <- vget (ip_values ip) id.2; omap sel (vget vs j) in
  omapM (fun j =>
    olet e <- vget s j; olet ab <- vget pairs j;
    let: (s0, s1) := if (ab.1 < ab.2)%N then (e.1, e.2) else (e.2, e.1) in
    olet y0 <- combine_point theta poly_ids U denominators (value fst j) s0;
    olet y1 <- combine_point theta poly_ids U denominators (value snd j) s1;
    Some (y0, y1)) (iota 0 (size s)).

(** [math::lagrange_interpolation] of (x, y0), (-x, y1), evaluated at [alpha] *)
Definition line_at (x y0 y1 alpha : F) : F :=
  y0 * ((alpha - (- x)) / (x - (- x))) + y1 * ((alpha - x) / (- x - x)).
(** 1074-1106; the vectors are those of 1066-1072 *)
Definition fold_pairs (s : seq (F * F)) (pairs pairs_next : seq (nat * nat)) (alpha : F) (y : seq (F * F)) : option (seq (F * F)) :=
  let interpolant j :=
    olet ab <- vget pairs j; olet e <- vget s j; olet v <- vget y j;
    Some (line_at (if (ab.1 < ab.2)%N then e.1 else e.2) v.1 v.2 alpha) in
  omapM (fun i =>
    olet l <- interpolant (2 * i)%N; olet r <- interpolant (2 * i + 1)%N;
    olet lr <- vget pairs_next i;
    Some (if (lr.1 < lr.2)%N then (l, r) else (r, l))) (iota 0 (size y %/ 2)).
(** 1061-1109 *)
Fixpoint fold_rounds (D : seq (seq F)) (alphas : seq F) (step n x_index t : nat) (y : seq (F * F)) : option (nat * nat * seq (F * F)) :=
  if n is n'.+1 then
    olet d <- vget D t; olet d' <- vget D t.+1;
    let x_index := (x_index %% size d)%N in
    olet x <- vget d x_index;
    olet next <- calculate_s (x * x) (x_index %% size d') step d';
    olet sp <- calculate_s x x_index step d;
    olet alpha <- vget alphas t;
    olet y' <- fold_pairs sp.1 sp.2 next.2 alpha y;
    fold_rounds D alphas step n' x_index t.+1 y'
  else Some (x_index, t, y).
(** 1042-1139. At 1046 the point is [D[t]]'s element at [x_index] (1136-1137; in the first round 973-979). *)
Fixpoint verify_rounds (D : seq (seq F)) (alphas : seq F) (final : seq F) (sl : seq nat) (roots : seq Dg) (rps : seq round_proof)
    (x : F) (x_index t : nat) (y : seq (F * F)) : option bool :=
  match sl, roots, rps with
  | step :: sl', root :: roots', rp :: rps' =>
    ocheck mp_root (rp_p rp) == root;
    olet d <- vget D t;
    olet sp <- calculate_s x x_index step d;
    olet order <- get_correct_order x_index (size d) step sp.2;
    olet leaf <- ordered_values order y;
    ocheck mp_validate (rp_p rp) leaf;
    olet f <- fold_rounds D alphas step (step - 1) x_index t y; let: (x_index, t, y) := f in
    olet d <- vget D t;
    let x_index := (x_index %% size d)%N in
    olet x <- vget d x_index;
    olet sp <- calculate_s x x_index step d;
    olet ab <- vget sp.2 0; olet e <- vget sp.1 0; olet v <- vget y 0; olet alpha <- vget alphas t;
    let interpolant := line_at (if (ab.1 < ab.2)%N then e.1 else e.2) v.1 v.2 alpha in
    let smaller := if (ab.1 < ab.2)%N then ab.1 else ab.2 in
    olet v' <- vget (rp_y rp) 0;
    ocheck interpolant == (if (smaller %% (size d %/ 2) < size d %/ 4)%N then v'.1 else v'.2);
    if sl' is [::] then
      (** 1141-1151 *)
      let x := x * x in
      let lo := (x_index %% (size d %/ 2) < size d %/ 4)%N in
      ocheck (if lo then v'.1 else v'.2) == peval final x;
      ocheck (if lo then v'.2 else v'.1) == peval final (- x);
      Some true
    else
      olet d <- vget D t.+1;
      let x_index := (x_index %% size d)%N in
      olet x <- vget d x_index;
      verify_rounds D alphas final sl' roots' rps' x x_index t.+1 (rp_y rp)
  | _, _, _ => None
  end.
(** 967-1152: one query *)
Definition verify_query (P : fri_params) (commitments : omapT Dg) (theta : F) poly_ids U denominators (alphas : seq F)
    (proof : fri_proof) (q : query_proof) (c : F) : option bool :=
  olet D0 <- vget (fp_D P) 0;
  let x := c ^+ ((modulus - 1) %/ size D0)%N in
  let x_index := index x D0 in
  olet step <- vget (fp_step_list P) 0;
  olet sp <- calculate_s x x_index step D0;
  olet order <- get_correct_order x_index (size D0) step sp.2;
  olet ok <- check_initial commitments order (qp_initial q);
  ocheck ok;
  olet y <- combine theta poly_ids U denominators (qp_initial q) sp.1 sp.2;
  verify_rounds (fp_D P) alphas (pf_final proof) (fp_step_list P) (pf_roots proof) (qp_rounds q) x x_index 0 y.
Fixpoint verify_queries (P : fri_params) commitments theta poly_ids U denominators alphas proof (n id : nat) (tr : T) :
    option (bool * T) :=
  if n is n'.+1 then
    let (c, tr) := challenge tr in
    olet q <- vget (pf_queries proof) id;
    olet ok <- verify_query P commitments theta poly_ids U denominators alphas proof q c;
    if ok then verify_queries P commitments theta poly_ids U denominators alphas proof n' id.+1 tr else Some (false, tr)
  else Some (true, tr).
(** 949-952: [degree() > pow(2, log2(max_degree + 1) - r + 1) - 1], in exact arithmetic (the code computes in double
    precision); the degree of an empty vector wraps around to the largest integer. *)
Definition degree_ok (P : fri_params) (final : seq F) : bool :=
  (0 < size final)%N && (size final * 2 ^ fp_r P <= 2 * (fp_max_degree P).+1)%N.
(** 933-1155; [None]: undefined behaviour, a failed assertion or an exception. The transcript after the call is returned when
    the proof is not rejected before the queries. *)
Definition verify_eval (P : fri_params) (proof : fri_proof) (commitments : omapT Dg) (theta : F) poly_ids U denominators (tr : T) :
    option (bool * T) :=
  oguard check_step_list P;
  oguard (size U == size denominators) && (size U == size poly_ids);
  if ~~ degree_ok P (pf_final proof) then Some (false, tr) else
  olet r <- round_challenges (fp_step_list P) (pf_roots proof) tr;
  olet w <- (if fp_use_grinding P then olet w <- pf_pow proof; Some (grind_verify r.2 w (fp_grinding_parameter P)) else Some (true, r.2));
  if ~~ w.1 then Some (false, w.2) else
  verify_queries P commitments theta poly_ids U denominators r.1 proof (fp_lambda P) 0 w.2.
End Fri.
