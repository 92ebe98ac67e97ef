(** The commitment schemes kzg_commitment_scheme (commitments/polynomial/kzg.hpp) and kzg_commitment_scheme_v2 (kzg_v2.hpp) as
    the commitment scheme of Placeholder. *)
From Coq Require Import NArith.
From mathcomp Require Import all_ssreflect all_algebra.
From Verif.Model Require Import Base OrderedMap Transcript PolysEvaluator Kzg Placeholder.
Set Implicit Arguments.
Unset Strict Implicit.
Unset Printing Implicit Defensive.
Import GRing.Theory.
Local Open Scope ring_scope.

Section Instance.
Variables (F : fieldType) (G1 G2 GT : lmodType F) (e : G1 -> G2 -> GT) (g1 : G1) (g2 : G2) (params : bkzg_params G1 G2).
Variables (B : Type) (hash : seq B -> seq B) (digest_to_field : seq B -> F).
Variables (enc_g1 : G1 -> seq B) (dec_g1 : seq B -> option G1) (enc_f : F -> seq B).

(** kzg.hpp:748-765, kzg_v2.hpp:208-225: the commitments to the polynomials of a batch, concatenated *)
Definition kzg_committable (ps : seq {poly F}) : bool := isSome (omapM (commit_with (bk_commitment_key params)) ps).
Definition kzg_commit_polys (ps : seq {poly F}) : seq B :=
  flatten [seq enc_g1 c | c <- odflt [::] (omapM (commit_with (bk_commitment_key params)) ps)].
(** kzg.hpp:767-774, kzg_v2.hpp:227-234: nothing is prepared *)
Definition kzg_preprocess (s : scheme F (seq B)) (tr : transcript B) : unit := tt.
Definition kzg_setup_transcript (tr : transcript B) (data : unit) : unit * transcript B := (tt, tr).
(** The state of the scheme: the keys, the state of Placeholder's model. *)
Definition kzg_state (s : scheme F (seq B)) : kzg_scheme G1 G2 B := KzgScheme params (sc_ev s) (sc_commitments s).
(** kzg.hpp:776-815, 817-867 *)
Definition kzg_v1_open (data : unit) (s : scheme F (seq B)) (tr : transcript B) : option ((eval_storage F * G1) * transcript B) :=
  kzg_scheme_proof_eval hash digest_to_field enc_f (kzg_state s) tr.
Definition kzg_v1_check (data : unit) (s : scheme F (seq B)) (proof : eval_storage F * G1) (commitments : omapT (seq B)) (tr : transcript B)
  : option (bool * transcript B) :=
  kzg_scheme_verify_eval e hash digest_to_field dec_g1 enc_f (kzg_state s) proof commitments tr.
(** kzg_v2.hpp:236-310, 312-373 *)
Definition kzg_v2_open (data : unit) (s : scheme F (seq B)) (tr : transcript B) : option ((eval_storage F * (G1 * G1)) * transcript B) :=
  omap (fun r : (eval_storage F * G1 * G1) * transcript B => ((r.1.1.1, (r.1.1.2, r.1.2)), r.2))
    (kzg_v2_proof_eval hash digest_to_field enc_g1 enc_f (kzg_state s) tr).
Definition kzg_v2_check (data : unit) (s : scheme F (seq B)) (proof : eval_storage F * (G1 * G1)) (commitments : omapT (seq B)) (tr : transcript B)
  : option (bool * transcript B) :=
  kzg_v2_verify_eval e g1 g2 hash digest_to_field enc_g1 dec_g1 enc_f (kzg_state s) (proof.1, proof.2.1, proof.2.2) commitments tr.
End Instance.
