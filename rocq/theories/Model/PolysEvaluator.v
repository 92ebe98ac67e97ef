(** Model of commitments/batched_commitment.hpp and detail/polynomial/eval_storage.hpp: the state shared by the batched
    commitment schemes. [math::polynomial] and [math::polynomial_dfs] (crypto3-math, outside /repo) are mathcomp polynomials:
    [coefficients()] and [evaluate()] are exact. *)
From mathcomp Require Import all_ssreflect all_algebra.
From Verif.Model Require Import Base OrderedMap PlonkTable.
Set Implicit Arguments.
Unset Strict Implicit.
Unset Printing Implicit Defensive.
Import GRing.Theory.
Local Open Scope ring_scope.

Section Evaluator.
Variable F : fieldType.

(** eval_storage.hpp:36-39: evaluations by batch, polynomial, point *)
Definition eval_storage := omapT (seq (seq F)).
(** batched_commitment.hpp:63-71 *)
Record evaluator := Evaluator {
  ev_z : eval_storage; ev_polys : omapT (seq {poly F}); ev_locked : omapT bool; ev_points : omapT (seq (seq F)) }.
Definition ev_empty := Evaluator [::] [::] [::] [::].

(** math::lagrange_interpolation (crypto3-math) *)
Definition lagrange_interpolation (pts : seq (F * F)) : {poly F} :=
  \sum_(k < size pts) (nth (0, 0) pts k).2 *:
    \prod_(j < size pts | j != k) (((nth (0, 0) pts k).1 - (nth (0, 0) pts j).1)^-1 *: ('X - (nth (0, 0) pts j).1%:P)).

(** 74-84 [get_V] *)
Definition get_V (points : seq F) : {poly F} := foldl (fun V x => V * ('X - x%:P)) 1 points.
(** 97-108 [get_U]; [None]: [at] throws, index out of range, or assertion violated *)
Definition get_U (ev : evaluator) (k i : nat) : option {poly F} :=
  olet batch <- om_get (ev_points ev) k; olet points <- vget batch i;
  olet zbatch <- om_get (ev_z ev) k; olet zs <- vget zbatch i;
  oguard size points == size zs;
  Some (lagrange_interpolation (zip points zs)).

(** 170-173 [state_commited] *)
Definition state_commited (ev : evaluator) (k : nat) : evaluator :=
  let polys := odflt [::] (om_get (ev_polys ev) k) in
  Evaluator (ev_z ev) (om_set (ev_polys ev) k polys) (om_set (ev_locked ev) k true)
    (om_set (ev_points ev) k (vresize (odflt [::] (om_get (ev_points ev) k)) (size polys) [::])).

(** 180-188: the evaluations of one batch *)
Definition eval_batch (polys : seq {poly F}) (points : seq (seq F)) : option (seq (seq F)) :=
  oguard (size polys == size points) || (size points == 1%N);
  omapM (fun i => olet p <- vget polys i; olet ps <- vget points i; Some [seq p.[x] | x <- ps]) (iota 0 (size polys)).
(** 175-190 [eval_polys] *)
Definition eval_polys (ev : evaluator) : option evaluator :=
  olet z <- ofold (fun z (e : nat * seq {poly F}) =>
      olet points <- om_get (ev_points ev) e.1; olet r <- eval_batch e.2 points; Some (om_set z e.1 r))
    (ev_z ev) (ev_polys ev);
  Some (Evaluator z (ev_polys ev) (ev_locked ev) (ev_points ev)).

(** 198-202 [append_to_batch] of one polynomial; [None]: assertion violated *)
Definition append_to_batch (ev : evaluator) (k : nat) (p : {poly F}) : option evaluator :=
  let locked := odflt false (om_get (ev_locked ev) k) in
  oguard ~~ locked;
  Some (Evaluator (ev_z ev) (om_set (ev_polys ev) k (rcons (odflt [::] (om_get (ev_polys ev) k)) p))
    (om_set (ev_locked ev) k locked) (ev_points ev)).
(** 204-209 [append_to_batch] of several polynomials *)
Definition append_all_to_batch (ev : evaluator) (k : nat) (ps : seq {poly F}) : option evaluator :=
  let locked := odflt false (om_get (ev_locked ev) k) in
  oguard ~~ locked;
  Some (Evaluator (ev_z ev) (om_set (ev_polys ev) k (odflt [::] (om_get (ev_polys ev) k) ++ ps))
    (om_set (ev_locked ev) k locked) (ev_points ev)).
(** 211-216, 223-229 [append_eval_point(s)] for every polynomial of the batch; a set of points is the list of its elements
    in increasing order *)
Definition append_eval_points (ev : evaluator) (k : nat) (xs : seq F) : option evaluator :=
  oguard odflt false (om_get (ev_locked ev) k);
  Some (Evaluator (ev_z ev) (ev_polys ev) (ev_locked ev)
    (om_set (ev_points ev) k [seq ps ++ xs | ps <- odflt [::] (om_get (ev_points ev) k)])).
(** 218-221, 231-235 [append_eval_point(s)] for one polynomial; [None]: assertion violated or index out of range *)
Definition append_eval_points_to (ev : evaluator) (k i : nat) (xs : seq F) : option evaluator :=
  oguard odflt false (om_get (ev_locked ev) k);
  let batch := odflt [::] (om_get (ev_points ev) k) in
  olet ps <- vget batch i; olet batch' <- vset batch i (ps ++ xs);
  Some (Evaluator (ev_z ev) (ev_polys ev) (ev_locked ev) (om_set (ev_points ev) k batch')).
(** 237-243 [set_batch_size] *)
Definition set_batch_size (ev : evaluator) (k n : nat) : evaluator :=
  Evaluator (ev_z ev) (ev_polys ev) (om_set (ev_locked ev) k true)
    (om_set (ev_points ev) k (vresize (odflt [::] (om_get (ev_points ev) k)) n [::])).

(** All pairs (batch, polynomial) for batches [keys] of sizes [sz]: two nested loops *)
Definition batch_indices (sz : nat -> option nat) (keys : seq nat) : option (seq (nat * nat)) :=
  omap flatten (omapM (fun k => omap (fun n => [seq (k, i) | i <- iota 0 n]) (sz k)) keys).

(** A loop [for (k, i) { acc += term(factor, k, i); factor *= gamma; }] from [factor = 1] *)
Definition power_loop (V : zmodType) (gamma : F) (term : F -> nat * nat -> option V) (idx : seq (nat * nat)) : option V :=
  omap fst (ofold (fun (st : V * F) ki => omap (fun v => (st.1 + v, st.2 * gamma)) (term st.2 ki)) (0, 1) idx).

(** Two-dimensional reads *)
Definition om_get2 (T : Type) (m : omapT (seq T)) (ki : nat * nat) : option T := olet b <- om_get m ki.1; vget b ki.2.
End Evaluator.
