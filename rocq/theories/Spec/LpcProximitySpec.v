(** Vocabulary of the soundness of the list polynomial commitment for arbitrary committed vectors. *)
From mathcomp Require Import all_ssreflect all_algebra.
From Verif.Model Require Import Base OrderedMap Domain Fri Lpc.
From Verif.Spec Require Import FriSpec ProximitySpec LpcSpec.
Set Implicit Arguments.
Unset Strict Implicit.
Unset Printing Implicit Defensive.
Import GRing.Theory.
Local Open Scope ring_scope.

Section LpcProximitySpec.
Variable F : fieldType.
Variable D : seq F.
(** The committed vectors *)
Variable vec : nat * nat -> seq F.
(** The polynomials [p], with at most [b] + 1 coefficients, explain the claims [cls] on the indices [T]: they have the claimed values at the
    claimed points, and the committed vectors have their values at the indices of [T]. *)
Definition explains (b : nat) (cls : seq (claim F)) (T : seq nat) (p : nat * nat -> {poly F}) : Prop :=
  forall o, List.In o cls -> [/\ (size (p (cl_id o)) <= b.+1)%N, (p (cl_id o)).[cl_point o] = cl_value o &
    forall i, i \in T -> nth 0 (vec (cl_id o)) i = (p (cl_id o)).[nth 0 D i]].
(** The vector that FRI is about *)
Definition combined_vector (cls : seq (claim F)) (theta : F) : seq F :=
  [seq quotients theta (fun id => nth 0 (vec id) i) (nth 0 D i) 0 cls | i <- iota 0 (size D)].
(** The challenge [theta] hides a wrong claim or errors of the vectors: the combined vector agrees with a polynomial with at most [b]
    coefficients except at [e] indices, but no polynomials explain the claims where it agrees. *)
Definition hides_claims (b e : nat) (cls : seq (claim F)) (theta : F) : Prop :=
  exists q : {poly F}, let A := agreement D (combined_vector cls theta) q in
  [/\ (size q <= b)%N, (size D <= size A + e)%N & ~ exists p, explains b cls A p].
End LpcProximitySpec.
