(** C32: the prover and the verifier open the same points. *)
From Coq Require Import NArith.
From mathcomp Require Import all_ssreflect all_algebra.
From Verif.Model Require Import Base OrderedMap HashMap Domain Expression PlonkVariable PlonkTable CycleRepresentation PolysEvaluator
  PermutationArgument GatesArgument LookupArgument Quotient Placeholder.
From Verif.Spec Require Import PlaceholderSpec CircuitSpec.
From Verif.Proofs Require Import NatTac PermProofs TableProofs KzgProofs PlaceholderProofs PlaceholderState PlaceholderRun PlaceholderPoints PlaceholderComplete.
From Verif.Props Require Import C33_FinalIdentity C34_PublicInputs.
Set Implicit Arguments.
Unset Strict Implicit.
Unset Printing Implicit Defensive.
Import GRing.Theory.
Local Open Scope ring_scope.

Section C32.
Variables (F : fieldType) (omega : F).
Variables (T : Type) (tr_start : T) (challenge : T -> F * T) (C H : Type) (absorb : T -> C -> T) (absorb_hash : T -> H -> T).
Variable iteration : seq plonk_variable -> seq plonk_variable.
Variables (committable : seq {poly F} -> bool) (commit_polys : seq {poly F} -> C).
Variables (D X : Type) (scheme_preprocess : scheme F C -> T -> D) (scheme_setup : T -> D -> X * T).
Notation preprocess := (placeholder_preprocess omega tr_start absorb absorb_hash iteration committable commit_polys scheme_preprocess).
Notation commit := (placeholder_commit omega tr_start challenge absorb absorb_hash iteration committable commit_polys scheme_setup).
(** the set of permuted columns is iterated in some order *)
Hypothesis iterationP : forall l, perm_eq (iteration l) l.
Variables (cs : constraint_system F) (public : plonk_public_table F) (d : table_description) (chunks : nat) (delta : F) (hash : H)
  (pp : preprocessed_data F C H D) (s : scheme F C) (witnesses : seq {poly F}).

(** The circuit is preprocessed, with columns as described; the prover has committed to its polynomials and reached [st].
    The verifier starts in the state [s] left by the preprocessor, and takes the sizes of the batches from the claimed values
    [z] (of the batches that are not fixed). Whatever the challenge [y], both sides register points without error, they
    are the same, and they are those of the specification: [opening_points] of Spec/PlaceholderSpec.v, for every polynomial
    of every batch that was committed to. *)
Theorem C32_same_points (st : prover_state F T C X) (z : eval_storage F) (y : F) :
  fits_description d public witnesses -> preprocess cs public d (fresh F C) chunks delta hash = Some (pp, s) ->
  commit pp witnesses d cs s = Some st ->
  (forall k, k != FIXED_VALUES_BATCH -> z_size z k = omap size (om_get (ev_polys (sc_ev (ps_scheme st))) k)) ->
  let points := opening_points omega y (size (cs_copy_constraints cs) != 0%N) (size (cs_lookup_gates cs) != 0%N) d
    (size (cd_permuted_columns (pp_common pp))) (cd_permutation_parts (pp_common pp)) (cd_columns_rotations (pp_common pp)) in
  exists sp sv,
  [/\ prover_evaluation_points omega pp cs d y (ps_scheme st) = Some sp,
      obnd (verifier_batch_sizes cs z s) (verifier_evaluation_points omega (pp_common pp) cs d y) = Some sv,
      ev_points (sc_ev sv) = ev_points (sc_ev sp) &
      forall k, om_get (ev_points (sc_ev sp)) k =
        omap (fun batch => [seq points k i | i <- iota 0 (size batch)]) (om_get (ev_polys (sc_ev (ps_scheme st))) k)].
Proof. move=> hfit hpre hst hz points; exact: (same_points iterationP hfit hpre y hst hz). Qed.
End C32.

(** The circuit of C34: a prover reaches such a state. *)
Section Witness.
Notation F := [fieldType of 'F_17].
Let omega : F := 4%:R.
Let iteration : seq plonk_variable -> seq plonk_variable := id.
Let challenge : unit -> F * unit := fun tt => (2%:R, tt).
Let nothing : unit -> unit -> unit := fun _ _ => tt.
Let no_data : scheme F unit -> unit -> unit := fun _ _ => tt.
Let setup : unit -> unit -> unit * unit := fun tr _ => (tt, tr).
Let no_commitment : seq {poly F} -> unit := fun _ => tt.
Notation d := public_d.
Notation cs := public_cs.
Notation t := public_table.
Lemma size_values (ev : evaluator F) k : z_size (all_values ev) k = omap size (om_get (ev_polys ev) k).
Proof. by rewrite /z_size om_get_values; case: (om_get (ev_polys ev) k) => //= b; rewrite size_map size_iota. Qed.
Notation preprocess := (placeholder_preprocess omega tt nothing nothing iteration xpredT no_commitment no_data).
Notation commit := (placeholder_commit omega tt challenge nothing nothing iteration xpredT no_commitment setup).
Example C32_witness : exists pp s ws st (z : eval_storage F),
  [/\ fits_description d (pt_public t) ws, preprocess cs (pt_public t) d (fresh F unit) 0 1 tt = Some (pp, s),
      commit pp ws d cs s = Some st &
      forall k, k != FIXED_VALUES_BATCH -> z_size z k = omap size (om_get (ev_polys (sc_ev (ps_scheme st))) k)].
Proof.
have hi l : perm_eq (iteration l) l by exact: perm_refl.
have [||pp [s hpre]] := @C33_preprocess F omega unit tt unit unit nothing nothing iteration xpredT no_commitment unit no_data cs t d 0 1 tt hi (fun _ _ => isT) public_shape public_ok.
- by vm_compute.
- by left.
have [ws hw] : exists ws, omapM (column_polynomial_dfs omega (td_rows d)) (pr_witnesses (pt_private t)) = Some ws.
  by eexists; rewrite /=; reflexivity.
have [sorted h] := C33_complete (challenge := challenge) (scheme_setup := setup) (fun _ _ _ => None : option (eval_storage F * unit * unit)) (fun _ _ _ _ _ => None)
  hi (fun _ _ => isT) public_prim public_shape public_ok hw hpre public_satisfies
  (fun h => False_ind _ (notF h)) (fun h => False_ind _ (notF h)) (fun h => False_ind _ (notF h)).
have [st hst {}h] := h (fun h => False_ind _ (notF h)).
exists pp, s, ws, st, (all_values (sc_ev (ps_scheme st))); split.
- exact: table_fits public_shape hw.
- exact: hpre.
- exact: hst.
move=> k _; exact: size_values.
Qed.
End Witness.

Print Assumptions C32_same_points.
