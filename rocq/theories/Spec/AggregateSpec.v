(** A batch of Groth16 proofs, checked one by one or in a random combination. *)
From mathcomp Require Import all_ssreflect all_algebra.
Set Implicit Arguments.
Unset Strict Implicit.
Unset Printing Implicit Defensive.
Import GRing.Theory.
Local Open Scope ring_scope.

Section Batch.
Variables (F : fieldType) (G1 G2 GT : lmodType F) (e : G1 -> G2 -> GT).
(** Elements of the verification key. *)
Variables (alpha first : G1) (rest : seq G1) (beta gamma delta : G2).

(** The side of the Groth16 equation given by the public input, and the one given by the proof (A, B, C):
    the proof is valid for the input when they are equal. *)
Definition input_side (input : seq F) : GT :=
  e alpha beta + e (first + \sum_(l < size rest) input`_l *: rest`_l) gamma.
Definition proof_side (pr : G1 * G2 * G1) : GT := e pr.1.1 pr.1.2 - e pr.2 delta.

(** The combination of the equations with the powers of [r]. *)
Definition batch_holds (r : F) (inputs : seq (seq F)) (proofs : seq (G1 * G2 * G1)) : Prop :=
  \sum_(i < size proofs) r ^+ i *: proof_side (nth (0, 0, 0) proofs i)
  = \sum_(j < size inputs) r ^+ j *: input_side (nth [::] inputs j).
End Batch.

Section Checks.
Variable F : fieldType.

(** The polynomial of the challenges at [x]: the product of (1 + xs_j x^(2^j)). *)
Definition challenge_poly (xs : seq F) (x : F) : F := \prod_(j < size xs) (1 + xs`_j * x ^+ (2 ^ j)).

(** A value corrected by the cross terms (left, right) of each round: left with the inverse of the round's challenge,
    right with the challenge. *)
Definition folded (V : lmodType F) (v : V) (xs : seq F) (lr : seq (V * V)) : V :=
  v + \sum_(j < size xs) ((xs`_j)^-1 *: (nth (0, 0) lr j).1 + xs`_j *: (nth (0, 0) lr j).2).
End Checks.
