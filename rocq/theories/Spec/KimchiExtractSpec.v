(** Vocabulary of the extraction from the inner product argument of the Kimchi polynomial commitment. *)
From mathcomp Require Import all_ssreflect all_algebra.
From Verif.Model Require Import Base KimchiPedersen.
From Verif.Spec Require Import KimchiSpec.
Set Implicit Arguments.
Unset Strict Implicit.
Unset Printing Implicit Defensive.
Import GRing.Theory.
Local Open Scope ring_scope.

(** The responses of a prover that is run again with other challenges: three challenges in each round, and in the end two last
    challenges [c], [c'] with the responses [z1], [z2]. Field elements only. *)
Inductive responses (F : Type) :=
| Last (c z1 z2 c' z1' z2' : F)
| Round (x1 : F) (t1 : responses F) (x2 : F) (t2 : responses F) (x3 : F) (t3 : responses F).

(** All runs have [k] rounds. *)
Fixpoint run_rounds (F : Type) (k : nat) (t : responses F) : bool :=
  match t, k with
  | Last _ _ _ _ _ _, 0%N => true
  | Round _ t1 _ t2 _ t3, k'.+1 => [&& run_rounds k' t1, run_rounds k' t2 & run_rounds k' t3]
  | _, _ => false
  end.

Section Extract.
Variables (F : fieldType) (V : lmodType F) (g : seq V) (h u : V) (xi : F) (comms : seq V) (v : F) (points : seq F) (r : F).
(** The combined value of a polynomial at the points *)
Definition combined_value (p : {poly F}) : F := \sum_(j < size points) r ^+ j * p.[nth 0 points j].
(** The commitment to a polynomial with the blinding element [w] *)
Definition pedersen (p : {poly F}) (w : F) : V := \sum_(i < size g) p`_i *: nth 0 g i + w *: h.
(** The two equations of the verifier hold for a run. *)
Definition run_accepted (lr : seq (V * V)) (chals : seq F) (delta : V) (c z1 z2 : F) : Prop :=
  exists sg, opening_defect h u xi comms v lr chals c delta sg z1 z2 (combined_value (challenge_poly chals)) = 0 /\ base_defect g chals sg = 0.
(** The runs are accepted. The points l and r are chosen before the challenge of the round, delta before the last challenge. [lr] and
    [chals] are the points and the challenges of the earlier rounds. *)
Fixpoint runs_accepted (lr : seq (V * V)) (chals : seq F) (t : responses F) : Prop :=
  match t with
  | Last c z1 z2 c' z1' z2' => c != c' /\ exists delta, run_accepted lr chals delta c z1 z2 /\ run_accepted lr chals delta c' z1' z2'
  | Round x1 t1 x2 t2 x3 t3 => uniq [:: 0; x1; x2; x3] /\ exists q : V * V,
      [/\ runs_accepted (rcons lr q) (rcons chals x1) t1, runs_accepted (rcons lr q) (rcons chals x2) t2 &
          runs_accepted (rcons lr q) (rcons chals x3) t3]
  end.
End Extract.
