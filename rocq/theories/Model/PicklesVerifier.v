(** Model of the linearization in snark/systems/plonk/pickles/verifier.hpp [to_batch]: the scalars and the commitments of [f_comm].
    [None]: a failed assertion or undefined behaviour. *)
From mathcomp Require Import all_ssreflect all_algebra.
From Verif.Model Require Import Base OrderedMap KimchiTranscript PicklesExpr.
Set Implicit Arguments.
Unset Strict Implicit.
Unset Printing Implicit Defensive.
Import GRing.Theory.
Local Open Scope ring_scope.

(** detail.hpp:92-101 [argument_type] *)
Definition arg_gate : nat := 0.
Definition arg_permutation : nat := 1.
Definition arg_lookup : nat := 2.
(** The commitments that [to_batch] combines; the pattern of a lookup selector is left out *)
Inductive commitment_name := NSigma (i : nat) | NCoefficient (i : nat) | NWitness (i : nat) | NZ | NLookupSorted (i : nat) | NLookupAggreg
  | NLookupSelector | NLookupTable (k : nat) | NGate (g : gate_type).

Section Linearization.
Variable F : fieldType.
Variables (n : nat) (omega : F).

(** verifier.hpp:120-143: the permutation and the generic gate; PERMUTES = 7, CONSTRAINTS = 3 *)
Definition linearization_head (al : alphas nat_eqType F) (evals : seq (evaluations F)) (beta gamma zkp : F) : option (seq (F * commitment_name)) :=
  olet a <- al_get al arg_permutation 3;
  olet p <- perm_scalars evals beta gamma a zkp;
  olet e0 <- vget evals 0;
  olet g <- gnrc_scalars a (ev_w e0) (ev_generic e0);
  Some ((p, NSigma (7 - 1)) :: zip g [seq NCoefficient i | i <- iota 0 (size g)]).
(** verifier.hpp:164-245: one term of the linearization; [tables]: [lookup_table.size()]. LookupRuntimeSelector and LookupRuntimeTable have no
    case. The commitment of a gate without selector is a default one; it is named [NGate] as well. *)
Definition index_term (lookup_index_is_used : bool) (tables : nat) (joint_combiner : F) (col : column) (scalar : F) : option (seq (F * commitment_name)) :=
  match col with
  | CWitness i => Some [:: (scalar, NWitness i)]
  | CCoefficient i => Some [:: (scalar, NCoefficient i)]
  | CZ => Some [:: (scalar, NZ)]
  | CLookupSorted i => Some [:: (scalar, NLookupSorted i)]
  | CLookupAggreg => Some [:: (scalar, NLookupAggreg)]
  | CLookupKindIndex => if lookup_index_is_used then Some [::] else Some [:: (scalar, NLookupSelector)]
  | CLookupTable =>
      if lookup_index_is_used then Some [::]
      else oguard (0 < tables)%N; Some [seq (scalar * joint_combiner ^+ k, NLookupTable k) | k <- iota 0 tables]
  | CIndex g => Some [:: (scalar, NGate g)]
  | CLookupRuntimeSelector | CLookupRuntimeTable => Some [::]
  end.
(** verifier.hpp:120-248: all scalars and commitments *)
Definition f_terms (al : alphas nat_eqType F) (evals : seq (evaluations F)) (c : constants F) (zeta zkp : F) (lookup_index_is_used : bool) (tables : nat)
    (terms : seq (column * seq (token F))) : option (seq (F * commitment_name)) :=
  olet head <- linearization_head al evals (c_beta c) (c_gamma c) zkp;
  ofold (fun acc t => olet x <- polish_evaluate n omega zeta evals c t.2;
      olet l <- index_term lookup_index_is_used tables (c_joint_combiner c) t.1 x; Some (acc ++ l)) head terms.
(** oracles.hpp:363-398: [ft_eval0] with the powers of the permutation and the constant term *)
Definition ft_eval0 (al : alphas nat_eqType F) (evals : seq (evaluations F)) (c : constants F) (zeta zkp iw p : F) (shift : seq F)
    (constant_term : seq (token F)) : option F :=
  olet a <- al_get al arg_permutation 3;
  olet ft <- ft_permutation evals (c_beta c) (c_gamma c) zeta zkp iw p n a shift;
  olet k <- polish_evaluate n omega zeta evals c constant_term;
  Some (ft - k).
End Linearization.
