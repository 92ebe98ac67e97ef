(** What a powers-of-tau accumulator is meant to hold. *)
From mathcomp Require Import all_ssreflect all_algebra.
From Verif.Model Require Import Base Domain KnowledgeCommitment PowersOfTau.
Set Implicit Arguments.
Unset Strict Implicit.
Unset Printing Implicit Defensive.
Import GRing.Theory.
Local Open Scope ring_scope.

Section CeremonySpec.
Variables (F : fieldType) (G1 G2 : lmodType F) (g1 : G1) (g2 : G2).

(** [v] holds c, c * tau, c * tau^2, ..., c * tau^(n-1) times the point [g]. *)
Definition scaled_powers (V : lmodType F) (g : V) (c tau : F) (n : nat) (v : seq V) : Prop :=
  size v = n /\ forall i, (i < n)%N -> nth 0 v i = (c * tau ^+ i) *: g.

(** The accumulator of length n for the secrets tau, alpha, beta: 2n - 1 powers in G1 and n in G2. *)
Definition accumulator_for (n : nat) (tau alpha beta : F) (a : tau_accumulator G1 G2) : Prop :=
  [/\ scaled_powers g1 1 tau (n.*2 - 1) (ta_tau_g1 a), scaled_powers g2 1 tau n (ta_tau_g2 a),
      scaled_powers g1 alpha tau n (ta_alpha_g1 a), scaled_powers g1 beta tau n (ta_beta_g1 a)
    & ta_beta_g2 a = beta *: g2].

(** [g] generates the group. *)
Definition generates (V : lmodType F) (g : V) := forall x : V, exists c : F, x = c *: g.

(** [rnd] with the draw number [i] replaced. *)
Definition redraw (rnd : nat -> F) (i : nat) (c : F) : nat -> F := fun j => if j == i then c else rnd j.

(** A randomised test that, at some draw, accepts at most one value of that draw whatever the other draws are:
    it accepts with probability at most 1 / |F|. *)
Definition rarely_accepts (test : (nat -> F) -> option bool) : Prop :=
  exists i, forall rnd c, test rnd = Some true -> test (redraw rnd i c) = Some true -> c = rnd i.
End CeremonySpec.
