(** The Merkle tree that set_commitment.hpp and the FRI files take from elsewhere (snark/merkle_tree.hpp is included by
    set_commitment.hpp:29 but is not part of /repo; crypto3-containers provides the tree of basic_fri.hpp). This is an
    ASSUMPTION about that dependency: a complete binary tree of depth [d] over leaves indexed from 0, whose inner nodes are
    hashed from their two children by [h]; a path lists the siblings from the top to the leaf. *)
From mathcomp Require Import all_ssreflect.
Set Implicit Arguments.
Unset Strict Implicit.
Unset Printing Implicit Defensive.

Section Merkle.
Variable D : eqType.
Variable h : D -> D -> D.

(** The right half of the leaves of a tree of depth [d + 1]. *)
Definition right_leaves (d : nat) (leaf : nat -> D) : nat -> D := fun i => leaf (2 ^ d + i).

Fixpoint merkle_root (d : nat) (leaf : nat -> D) : D :=
  if d is d'.+1 then h (merkle_root d' leaf) (merkle_root d' (right_leaves d' leaf)) else leaf 0.

Fixpoint merkle_path (d : nat) (leaf : nat -> D) (i : nat) : seq D :=
  if d is d'.+1 then
    if i < 2 ^ d' then merkle_root d' (right_leaves d' leaf) :: merkle_path d' leaf i
    else merkle_root d' leaf :: merkle_path d' (right_leaves d' leaf) (i - 2 ^ d')
  else [::].

(** The root recomputed from a leaf and its siblings. *)
Fixpoint merkle_fold (d : nat) (i : nat) (x : D) (path : seq D) : option D :=
  match d, path with
  | 0, [::] => Some x
  | d'.+1, s :: path' =>
      if i < 2 ^ d' then omap (fun r => h r s) (merkle_fold d' i x path')
      else omap (fun r => h s r) (merkle_fold d' (i - 2 ^ d') x path')
  | _, _ => None
  end.
Definition merkle_verify (d : nat) (root : D) (i : nat) (x : D) (path : seq D) : bool := merkle_fold d i x path == Some root.
End Merkle.
