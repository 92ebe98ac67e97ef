(** Vocabulary of the FRI properties. *)
From mathcomp Require Import all_ssreflect all_algebra.
From Verif.Model Require Import Base OrderedMap Domain Fri.
Set Implicit Arguments.
Unset Strict Implicit.
Unset Printing Implicit Defensive.
Import GRing.Theory.
Local Open Scope ring_scope.

Section FriSpec.
Variable F : fieldType.
(** The roots of unity of the domains: a primitive one of order 2^k, each next one is the square of the previous one. *)
Definition roots_ok (unity_root : nat -> F) (k : nat) : Prop :=
  (2 ^ k)%N.-primitive_root (unity_root (2 ^ k)%N) /\
  forall j, (j < k)%N -> unity_root (2 ^ j)%N = unity_root (2 ^ j.+1)%N ^+ 2.

(** The combination checked by FRI at the point [x]: each group of polynomials has a claimed value and a denominator; the
    polynomials of all groups together are weighted by successive powers of theta, starting with the power [off]. *)
Fixpoint combination (theta : F) (value : nat * nat -> F) (x : F) (off : nat) (groups : seq (seq (nat * nat) * (F * seq F))) : F :=
  if groups is (ids, (u, V)) :: groups' then
    (\sum_(k < size ids) theta ^+ (off + k) * value (nth (0, 0)%N ids k) - u) / (Poly V).[x] +
    combination theta value x (off + size ids) groups'
  else 0.

(** The values of the polynomial [f] on the domain [D]: [f] is a vector of coefficients, or the vector of the values of a
    polynomial on the domain of its size. *)
Definition values_of (unity_root : nat -> F) (f : fpoly F) (D : seq F) (v : seq F) : Prop :=
  match f with
  | Coef c => v = [seq (Poly c).[x] | x <- D]
  | Dfs u => exists j (p : {poly F}), [/\ size u = (2 ^ j)%N, (size p <= size u)%N,
      u = [seq p.[x] | x <- make_domain unity_root (size u)] & v = [seq p.[x] | x <- D]]
  end.
(** A polynomial with fewer than [b] + 1 coefficients, in a form that FRI can fold on the domain [D] *)
Definition below (b : nat) (f : fpoly F) (D : seq F) : Prop :=
  match f with
  | Coef c => (0 < size c <= b)%N
  | Dfs u => exists p : {poly F}, (size p <= b)%N /\ u = [seq p.[x] | x <- D]
  end.
(** A way to break the hashing of the Merkle trees: two pairs of digests with one hash, two leaves with one hash, or a leaf
    with the hash of a pair of digests *)
Definition hash_broken (Dg : eqType) (hash_leaf : seq F -> Dg) (hash_node : Dg -> Dg -> Dg) : Prop :=
  [\/ exists a b a' b', (a, b) <> (a', b') /\ hash_node a b = hash_node a' b',
      exists s s', s <> s' /\ hash_leaf s = hash_leaf s' |
      exists s a b, hash_leaf s = hash_node a b].
(** Folding a vector of values on the domain of 2^(j+1) points with the challenge [alpha]: at the square of the point [w^i]
    the result is the value at [alpha] of the line through the values at [w^i] and at its opposite [w^(i + 2^j)]. *)
Definition folded (unity_root : nat -> F) (j : nat) (alpha : F) (v : seq F) : seq F :=
  [seq let w := unity_root (2 ^ j.+1)%N ^+ i in
       ((w + alpha) * nth 0 v i + (w - alpha) * nth 0 v (i + 2 ^ j)%N) / (2%:R * w) | i <- iota 0 (2 ^ j)].
(** ... with several challenges; [v] are values on the domain of 2^j points *)
Fixpoint folded_many (unity_root : nat -> F) (j : nat) (alphas : seq F) (v : seq F) : seq F :=
  if alphas is alpha :: alphas' then folded_many unity_root j.-1 alphas' (folded unity_root j.-1 alpha v) else v.
(** The vectors [ws] (the first one on the domain of 2^j points) are consistent at the index [x]: each one, folded with the
    challenges of its round, has the value of the next one, and the last one that of the final polynomial, at the power of the
    query point. *)
Fixpoint consistent_at (unity_root : nat -> F) (final : {poly F}) (j : nat) (sl : seq nat) (alphas : seq F) (ws : seq (seq F)) (x : nat) : Prop :=
  match sl, ws with
  | step :: sl', w :: ws' =>
      let j' := (j - step)%N in let z := (x %% 2 ^ j')%N in
      nth 0 (folded_many unity_root j (take step alphas) w) z =
        (if ws' is w' :: _ then nth 0 w' z else final.[unity_root (2 ^ j')%N ^+ z]) /\
      consistent_at unity_root final j' sl' (drop step alphas) ws' z
  | [::], [::] => True
  | _, _ => False
  end.
Section Commitments.
Variables (Dg : eqType) (hash_leaf : seq F -> Dg) (hash_node : Dg -> Dg -> Dg).
(** [c] is the root of the tree that commits to the vectors [vs] on the domain of 2^j points, with leaves for [step]. *)
Definition commits_to (j step : nat) (vs : seq (seq F)) (c : Dg) : Prop :=
  all (fun v => size v == 2 ^ j)%N vs /\ exists2 t, precommit_values vs (2 ^ j) step = Some t & c = tr_root hash_leaf hash_node t.
(** [roots] are commitments to the vectors [ws] of the rounds. *)
Fixpoint round_commitments (j : nat) (sl : seq nat) (ws : seq (seq F)) (roots : seq Dg) : Prop :=
  match sl, ws, roots with
  | step :: sl', w :: ws', c :: roots' => commits_to j step [:: w] c /\ round_commitments (j - step) sl' ws' roots'
  | [::], [::], _ => True
  | _, _, _ => False
  end.
(** The Merkle proofs of a query for the index [x] open the leaves that the index determines. *)
Fixpoint round_positions (j : nat) (sl : seq nat) (rps : seq (round_proof F Dg)) (x : nat) : bool :=
  match sl, rps with
  | step :: sl', rp :: rps' => (mp_position (rp_p rp) == x %% 2 ^ (j - step))%N && round_positions (j - step) sl' rps' x
  | _, _ => true
  end.
Definition positions (j : nat) (sl : seq nat) (q : query_proof F Dg) (x : nat) : bool :=
  all (fun e => mp_position (ip_p e.2) == x %% 2 ^ (j - head 0%N sl))%N (qp_initial q) && round_positions j sl (qp_rounds q) x.
End Commitments.
(** [values] are the values on [D] of the polynomials [g] *)
Definition batch_values (unity_root : nat -> F) (g : omapT (seq (fpoly F))) (D : seq F) (values : nat * nat -> seq F) : Prop :=
  forall k i fs f, om_get g k = Some fs -> vget fs i = Some f -> values_of unity_root f D (values (k, i)).
End FriSpec.
