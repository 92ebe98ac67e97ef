(** Vocabulary of the proximity properties of FRI. *)
From mathcomp Require Import all_ssreflect all_algebra.
From Verif.Model Require Import Base OrderedMap Domain Fri.
From Verif.Spec Require Import FriSpec.
Set Implicit Arguments.
Unset Strict Implicit.
Unset Printing Implicit Defensive.
Import GRing.Theory.
Local Open Scope ring_scope.

Section ProximitySpec.
Variable F : fieldType.
Variable unity_root : nat -> F.
Notation dom j := (make_domain unity_root (2 ^ j)).
(** The indices at which the vector [v] has the values of the polynomial [p] on the domain [D] *)
Definition agreement (D v : seq F) (p : {poly F}) : seq nat := [seq i <- iota 0 (size D) | nth 0 v i == p.[nth 0 D i]].
(** The challenge [alpha] hides errors of [v], a vector on the domain of 2^(j+1) points: folded with [alpha] it agrees with a
    polynomial with at most [b] coefficients except at [e] points, but no polynomial with at most 2b coefficients agrees
    with [v] at all the points that are folded to the points of agreement. *)
Definition hides_errors (j b e : nat) (v : seq F) (alpha : F) : Prop :=
  exists q : {poly F}, let A := agreement (dom j) (folded unity_root j alpha v) q in
  [/\ (size q <= b)%N, (2 ^ j <= size A + e)%N &
      forall p : {poly F}, (size p <= 2 * b)%N ->
        exists2 i, i \in A & (nth 0 v i, nth 0 v (i + 2 ^ j)) <> (p.[nth 0 (dom j.+1) i], p.[nth 0 (dom j.+1) (i + 2 ^ j)])].
(** The foldings made by FRI: the vector that is folded, on the domain of 2^(j+1) points, with [j] and the challenge. The vector
    depends only on the vectors committed to and the challenges drawn before this challenge. *)
Fixpoint foldings_of (j : nat) (alphas : seq F) (v : seq F) : seq (nat * (seq F * F)) :=
  if alphas is alpha :: alphas' then (j.-1, (v, alpha)) :: foldings_of j.-1 alphas' (folded unity_root j.-1 alpha v) else [::].
Fixpoint foldings (j : nat) (sl : seq nat) (alphas : seq F) (ws : seq (seq F)) : seq (nat * (seq F * F)) :=
  match sl, ws with
  | step :: sl', w :: ws' => foldings_of j (take step alphas) w ++ foldings (j - step) sl' (drop step alphas) ws'
  | _, _ => [::]
  end.
(** One of the challenges hides errors. [B] bounds the number of coefficients and [E] the number of errors on the first domain,
    of 2^K points; on a domain that is 2^i times smaller, the bounds are 2^i times smaller. *)
Definition errors_hidden (K B E : nat) (sl : seq nat) (alphas : seq F) (ws : seq (seq F)) : Prop :=
  exists2 f, f \in foldings K sl alphas ws & hides_errors f.1 (B %/ 2 ^ (K - f.1)) (E %/ 2 ^ (K - f.1)) f.2.1 f.2.2.
(** The vectors to which a prover commits that follows a strategy: a function of the challenges drawn so far *)
Fixpoint strategy_vectors (strategy : seq F -> seq F) (sl : seq nat) (before alphas : seq F) : seq (seq F) :=
  if sl is step :: sl' then strategy before :: strategy_vectors strategy sl' (before ++ take step alphas) (drop step alphas)
  else [::].
End ProximitySpec.
