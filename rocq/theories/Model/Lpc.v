(** Model of commitments/polynomial/lpc.hpp [lpc_commitment_scheme]: the batched commitment scheme over FRI. Polynomials are
    mathcomp polynomials as in Model/PolysEvaluator.v; [stored] is the representation that FRI gets. [None]: undefined
    behaviour (index out of range), a failed assertion or an exception. *)
From mathcomp Require Import all_ssreflect all_algebra.
From Verif.Model Require Import Base OrderedMap PlonkTable Domain Quotient PolysEvaluator Fri.
Set Implicit Arguments.
Unset Strict Implicit.
Unset Printing Implicit Defensive.
Import GRing.Theory.
Local Open Scope ring_scope.

Section Lpc.
Variable F : fieldType.
Variables (Dg : eqType) (hash_leaf : seq F -> Dg) (hash_node : Dg -> Dg -> Dg).
Variables (T : Type) (absorb : T -> Dg -> T) (challenge : T -> F * T).
Variables (Pw : Type) (grind : T -> nat -> option (Pw * T)) (grind_verify : T -> Pw -> nat -> bool * T).
Variable modulus : nat.
Variable unity_root : nat -> F.

(** The template parameter PolynomialType: [math::polynomial] or [math::polynomial_dfs]. In the second case the polynomial
    number [i] of the batch [k] is a vector of 2^(log_size (k, i)) values. *)
Inductive poly_type := PCoef | PDfs (log_size : nat * nat -> nat).
(** The object at the place [id] that represents [p]; [None]: too few values for the polynomial *)
Definition stored (R : poly_type) (p : {poly F}) (id : nat * nat) : option (fpoly F) :=
  match R with
  | PCoef => Some (Coef (coefficients p))
  | PDfs log_size => oguard (size p <= 2 ^ log_size id)%N; Some (Dfs (fft (make_domain unity_root (2 ^ log_size id)) (coefficients p)))
  end.
Definition stored_batch (R : poly_type) (k : nat) (ps : seq {poly F}) : option (seq (fpoly F)) :=
  omapM (fun e => stored R e.1 (k, e.2)) (zip ps (iota 0 (size ps))).

(** 70-75: the state besides the parameters *)
Record lpc_scheme := LpcScheme { ls_ev : evaluator F; ls_trees : omapT (tree F); ls_etha : F; ls_fixed : omapT bool;
  ls_fixed_values : omapT (seq F) }.
(** 78-80 *)
Definition lpc_init : lpc_scheme := LpcScheme (ev_empty F) [::] 0 [::] [::].

(** 82-94: the values of the polynomials of the fixed batches at a challenge *)
Definition lpc_preprocess (s : lpc_scheme) (tr : T) : option (omapT (seq F) * T) :=
  let (etha, tr) := challenge tr in
  olet r <- omapM (fun e : nat * bool => olet ps <- om_get (ev_polys (ls_ev s)) e.1; Some (e.1, [seq p.[etha] | p : {poly F} <- ps]))
    [seq e <- ls_fixed s | e.2];
  Some (r, tr).
(** 96-99 *)
Definition lpc_setup (s : lpc_scheme) (tr : T) (data : omapT (seq F)) : lpc_scheme * T :=
  let (etha, tr) := challenge tr in (LpcScheme (ls_ev s) (ls_trees s) etha (ls_fixed s) data, tr).
(** 101-106 *)
Definition lpc_commit (R : poly_type) (P : fri_params F) (s : lpc_scheme) (k : nat) : option (Dg * lpc_scheme) :=
  let ev := state_commited (ls_ev s) k in
  olet D0 <- vget (fp_D P) 0; olet step <- vget (fp_step_list P) 0;
  olet fs <- stored_batch R k (odflt [::] (om_get (ev_polys ev) k));
  olet t <- precommit_batch unity_root fs D0 step;
  Some (tr_root hash_leaf hash_node t, LpcScheme ev (om_set (ls_trees s) k t) (ls_etha s) (ls_fixed s) (ls_fixed_values s)).
(** 109-111 *)
Definition lpc_mark_batch_as_fixed (s : lpc_scheme) (k : nat) : lpc_scheme :=
  LpcScheme (ls_ev s) (ls_trees s) (ls_etha s) (om_set (ls_fixed s) k true) (ls_fixed_values s).
(** [_batch_fixed[i]]: false if absent *)
Definition is_fixed (s : lpc_scheme) (k : nat) : bool := odflt false (om_get (ls_fixed s) k).

(** batched_commitment.hpp:111-127 *)
Definition get_unique_points (points : omapT (seq (seq F))) : seq F :=
  foldl (fun r x => if x \in r then r else rcons r x) [::] (flatten (flatten [seq e.2 | e <- points])).
(** The pairs (i, j) of the two loops over [_z.get_batches()] and [_z.get_batch_size(i)] *)
Definition z_indices (z : eval_storage F) : option (seq (nat * nat)) := batch_indices (fun k => omap size (om_get z k)) (om_keys z).

(** ** The prover *)
(** 136-151: the numerator for one point; 135, 152: divided by [X - point]. The accumulator is [theta_acc]. *)
Definition point_numerator (ev : evaluator F) (theta point : F) (ids : seq (nat * nat)) (acc : F) : option ({poly F} * F) :=
  ofold (fun (st : {poly F} * F) id =>
    olet xs <- om_get2 (ev_points ev) id;
    if point \in xs then
      olet p <- om_get2 (ev_polys ev) id; olet zs <- om_get2 (ev_z ev) id; olet v <- vget zs (index point xs);
      Some (st.1 + st.2 *: p - (v * st.2)%:P, st.2 * theta)
    else Some st) (0, acc) ids.
(** 161-173, 174: the same for a fixed batch, at the point [_etha] *)
Definition fixed_numerator (s : lpc_scheme) (ev : evaluator F) (theta : F) (ids : seq (nat * nat)) (acc : F) : option ({poly F} * F) :=
  ofold (fun (st : {poly F} * F) id =>
    olet p <- om_get2 (ev_polys ev) id; olet v <- vget (odflt [::] (om_get (ls_fixed_values s) id.1)) id.2;
    Some (st.1 + st.2 *: p - (v * st.2)%:P, st.2 * theta)) (0, acc) ids.
(** 134-154, 156-176 *)
Definition combined_quotient (s : lpc_scheme) (ev : evaluator F) (theta : F) : option {poly F} :=
  olet ids <- z_indices (ev_z ev);
  olet r <- ofold (fun (st : {poly F} * F) point =>
      olet n <- point_numerator ev theta point ids st.2;
      Some (st.1 + n.1 %/ ('X - point%:P), n.2)) (0, 1) (get_unique_points (ev_points ev));
  olet r <- ofold (fun (st : {poly F} * F) k =>
      olet n <- fixed_numerator s ev theta [seq id <- ids | id.1 == k] st.2;
      Some (st.1 + n.1 %/ ('X - (ls_etha s)%:P), n.2)) r [seq k <- om_keys (ev_z ev) | is_fixed s k];
  Some r.1.
(** 178-188: the polynomial given to FRI; [precommit] has extended its values to the domain [D0]. *)
Definition quotient_object (R : poly_type) (D0 : seq F) (Q : {poly F}) : option (fpoly F) :=
  match R with
  | PCoef => Some (Coef (coefficients Q))
  | PDfs _ => oguard (size (coefficients Q) <= size D0)%N; Some (Dfs (fft D0 (coefficients Q)))
  end.
Definition lpc_proof := (eval_storage F * fri_proof F Dg Pw)%type.
(** 113-200 *)
Definition lpc_proof_eval (R : poly_type) (P : fri_params F) (s : lpc_scheme) (tr : T) : option (lpc_proof * T) :=
  olet ev <- eval_polys (ls_ev s);
  oguard (size (ev_points ev) == size (ev_polys ev)) && (size (ev_points ev) == size (ev_z ev));
  let tr := foldl absorb tr [seq tr_root hash_leaf hash_node e.2 | e <- ls_trees s] in
  let (theta, tr) := challenge tr in
  olet Q <- combined_quotient s ev theta;
  olet D0 <- vget (fp_D P) 0; olet step <- vget (fp_step_list P) 0;
  olet fQ <- quotient_object R D0 Q;
  olet tree_Q <- precommit unity_root fQ D0 step;
  olet g <- omapM (fun e : nat * seq {poly F} => olet fs <- stored_batch R e.1 e.2; Some (e.1, fs)) (ev_polys ev);
  olet r <- proof_eval hash_leaf hash_node absorb challenge grind modulus unity_root P g fQ (ls_trees s) tree_Q tr;
  Some ((ev_z ev, r.1), r.2).

(** ** The verifier *)
(** 229-239: the polynomials opened at one point, and the combination of the claimed values *)
Definition point_group (points : omapT (seq (seq F))) (z : eval_storage F) (theta point : F) (ids : seq (nat * nat)) (acc : F) :
    option (seq (nat * nat) * F * F) :=
  ofold (fun (st : seq (nat * nat) * F * F) id =>
    olet xs <- om_get2 points id;
    if point \in xs then
      olet zs <- om_get2 z id; olet v <- vget zs (index point xs);
      Some (rcons st.1.1 id, st.1.2 + v * st.2, st.2 * theta)
    else Some st) ([::], 0, acc) ids.
(** 244-251: the polynomials of all fixed batches *)
Definition fixed_group (s : lpc_scheme) (theta : F) (ids : seq (nat * nat)) (acc : F) : option (seq (nat * nat) * F * F) :=
  ofold (fun (st : seq (nat * nat) * F * F) id =>
    if is_fixed s id.1 then
      olet v <- vget (odflt [::] (om_get (ls_fixed_values s) id.1)) id.2;
      Some (rcons st.1.1 id, st.1.2 + v * st.2, st.2 * theta)
    else Some st) ([::], 0, acc) ids.
(** 211-252: [poly_map], [U], [V] *)
Definition verifier_groups (s : lpc_scheme) (z : eval_storage F) (theta : F) : option (seq (seq (nat * nat)) * seq F * seq (seq F)) :=
  let points := get_unique_points (ev_points (ls_ev s)) in
  olet ids <- z_indices z;
  olet r <- ofold (fun (st : seq (seq (nat * nat)) * seq F * F) point =>
      olet g <- point_group (ev_points (ls_ev s)) z theta point ids st.2;
      Some (rcons st.1.1 g.1.1, rcons st.1.2 g.1.2, g.2)) ([::], [::], 1) points;
  let V := [seq [:: - point; 1] | point <- points] in
  if has (fun e : nat * bool => e.2) (ls_fixed s) then
    olet g <- fixed_group s theta ids r.2;
    Some (rcons r.1.1 g.1.1, rcons r.1.2 g.1.2, rcons V [:: - ls_etha s; 1])
  else Some (r.1.1, r.1.2, V).
(** 202-267 *)
Definition lpc_verify_eval (P : fri_params F) (s : lpc_scheme) (proof : lpc_proof) (commitments : omapT Dg) (tr : T) : option (bool * T) :=
  let tr := foldl absorb tr [seq e.2 | e <- commitments] in
  let (theta, tr) := challenge tr in
  olet g <- verifier_groups s proof.1 theta;
  verify_eval hash_leaf hash_node absorb challenge grind_verify modulus P proof.2 commitments theta g.1.1 g.1.2 g.2 tr.
End Lpc.
