(** Vocabulary of the property of the list polynomial commitment. *)
From mathcomp Require Import all_ssreflect all_algebra.
From Verif.Model Require Import Base OrderedMap PolysEvaluator Fri Lpc.
Set Implicit Arguments.
Unset Strict Implicit.
Unset Printing Implicit Defensive.
Import GRing.Theory.
Local Open Scope ring_scope.

(** The places (batch, index) of a map of vectors, in order, and the entry at a place *)
Definition places (A : Type) (m : omapT (seq A)) : seq (nat * nat) :=
  [seq (k, i) | k <- om_keys m, i <- iota 0 (size (odflt [::] (om_get m k)))].
Definition entry (A : Type) (d : A) (m : omapT (seq A)) (id : nat * nat) : A := nth d (odflt [::] (om_get m id.1)) id.2.

Section LpcSpec.
Variable F : fieldType.
(** A claim: the polynomial [cl_id] is claimed to have the value [cl_value] at the point [cl_point]. *)
Record claim := Claim { cl_point : F; cl_id : nat * nat; cl_value : F }.
(** The claims that the verifier checks, in the order of the powers of theta: for each point, the polynomials that are opened
    there, with the value that [z] has for this point (at its first occurrence in the list of points of the polynomial); then
    the polynomials of the fixed batches with their preprocessed values at etha. *)
Definition claims (s : lpc_scheme F) (z : eval_storage F) : seq claim :=
  flatten [seq [seq Claim c id (nth 0 (entry [::] z id) (index c (entry [::] (ev_points (ls_ev s)) id)))
    | id <- places z & c \in entry [::] (ev_points (ls_ev s)) id] | c <- get_unique_points (ev_points (ls_ev s))] ++
  [seq Claim (ls_etha s) id (nth 0 (odflt [::] (om_get (ls_fixed_values s) id.1)) id.2) | id <- places z & is_fixed s id.1].
(** The claim is right for the polynomials [p]. *)
Definition right (p : nat * nat -> {poly F}) (o : claim) : bool := (p (cl_id o)).[cl_point o] == cl_value o.
(** The sum over the claims of theta^e (v - value) / (x - point), where [v] is the value at [x] of the polynomial *)
Fixpoint quotients (theta : F) (v : nat * nat -> F) (x : F) (e : nat) (os : seq claim) : F :=
  if os is o :: os' then theta ^+ e * ((v (cl_id o) - cl_value o) / (x - cl_point o)) + quotients theta v x e.+1 os' else 0.
End LpcSpec.

(** ** Histories of calls *)
Section Histories.
Variable F : fieldType.
Variables (Dg : eqType) (hash_leaf : seq F -> Dg) (hash_node : Dg -> Dg -> Dg).
Variables (T : Type) (challenge : T -> F * T) (unity_root : nat -> F).
Variables (R : poly_type) (P : fri_params F).
(** Calls on the commitment scheme object of the prover. [Setup tr]: the preprocessing, then the setup with the preprocessed
    values, both with a transcript in the state [tr]. *)
Inductive call :=
| Append (k : nat) (p : {poly F})
| AppendAll (k : nat) (ps : seq {poly F})
| Commit (k : nat)
| EvalPoints (k : nat) (xs : seq F)
| EvalPointsTo (k i : nat) (xs : seq F)
| MarkFixed (k : nat)
| Setup (tr : T).
Definition with_ev (s : lpc_scheme F) (o : option (evaluator F)) : option (lpc_scheme F) :=
  omap (fun ev => LpcScheme ev (ls_trees s) (ls_etha s) (ls_fixed s) (ls_fixed_values s)) o.
Definition prover_call (s : lpc_scheme F) (c : call) : option (lpc_scheme F) :=
  match c with
  | Append k p => with_ev s (append_to_batch (ls_ev s) k p)
  | AppendAll k ps => with_ev s (append_all_to_batch (ls_ev s) k ps)
  | Commit k => omap snd (lpc_commit hash_leaf hash_node unity_root R P s k)
  | EvalPoints k xs => with_ev s (append_eval_points (ls_ev s) k xs)
  | EvalPointsTo k i xs => with_ev s (append_eval_points_to (ls_ev s) k i xs)
  | MarkFixed k => Some (lpc_mark_batch_as_fixed s k)
  | Setup tr => omap (fun data : omapT (seq F) * T => (lpc_setup challenge s tr data.1).1) (lpc_preprocess challenge s tr)
  end.
Definition prover_run (h : seq call) : option (lpc_scheme F) := ofold prover_call (lpc_init F) h.
(** The corresponding calls on the object [v] of the verifier, when [s] is the object of the prover before the call: it is told
    the number of polynomials of a batch when the prover commits to it, and gets the preprocessed values. *)
Definition verifier_call (s v : lpc_scheme F) (c : call) : option (lpc_scheme F) :=
  match c with
  | Append _ _ | AppendAll _ _ => Some v
  | Commit k => with_ev v (Some (set_batch_size (ls_ev v) k (size (odflt [::] (om_get (ev_polys (ls_ev s)) k)))))
  | EvalPoints k xs => with_ev v (append_eval_points (ls_ev v) k xs)
  | EvalPointsTo k i xs => with_ev v (append_eval_points_to (ls_ev v) k i xs)
  | MarkFixed k => Some (lpc_mark_batch_as_fixed v k)
  | Setup tr => omap (fun data : omapT (seq F) * T => (lpc_setup challenge v tr data.1).1) (lpc_preprocess challenge s tr)
  end.
Definition both_run (h : seq call) : option (lpc_scheme F * lpc_scheme F) :=
  ofold (fun st c => olet s <- prover_call st.1 c; olet v <- verifier_call st.1 st.2 c; Some (s, v)) (lpc_init F, lpc_init F) h.
(** Batches are marked as fixed after they are committed to and before the setup. *)
Definition marks_in_order (h : seq call) : Prop := forall h1 k h2, h = h1 ++ MarkFixed k :: h2 ->
  List.In (Commit k) h1 /\ exists tr, List.In (Setup tr) h2.
End Histories.
