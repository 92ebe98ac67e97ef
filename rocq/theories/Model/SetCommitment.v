(** Model of snark/set_commitment.hpp. Bit vectors are [seq bool]. The Merkle tree is the one of Model/MerkleTree.v (an
    assumption: the header is missing from /repo), with all leaves zero at the start. [None]: an assertion fails, or a value is
    stored at an address outside the tree. [Hash::get_hash] is [hash]; [two_to_one] hashes two digests. *)
From mathcomp Require Import all_ssreflect.
From Verif.Model Require Import Base OrderedMap HashMap MerkleTree.
Set Implicit Arguments.
Unset Strict Implicit.
Unset Printing Implicit Defensive.

Notation bits := (seq bool).

Section SetCommitment.
Variables (hash : bits -> bits) (two_to_one : bits -> bits -> bits) (digest_size : nat).

(** set_commitment.hpp:39-54 *)
Record set_membership_proof := SetMembershipProof { sm_address : nat; sm_path : seq bits }.

(** set_commitment.hpp:56-65: the leaves of the tree, the map from hashes to positions (a list of pairs; keys are unique), the
    depth and the size of the values *)
Record accumulator := Accumulator { sa_leaf : nat -> bits; sa_hash_to_pos : seq (bits * nat); sa_depth : nat; sa_value_size : nat }.

(** set_commitment.hpp:67-73; [None]: the logarithm of zero *)
Definition accumulator_init (max_entries value_size : nat) : option accumulator :=
  oguard 0 < max_entries;
  Some (Accumulator (fun _ => nseq digest_size false) [::] (up_log 2 max_entries) value_size).

(** set_commitment.hpp:76, 86 *)
Definition size_ok (s : accumulator) (value : bits) : bool := (sa_value_size s == 0) || (size value == sa_value_size s).

(** [std::map::find] *)
Fixpoint find_hash (m : seq (bits * nat)) (k : bits) : option nat :=
  if m is (k', p) :: m' then if k' == k then Some p else find_hash m' k else None.

(** [merkle_tree::set_value] (assumed) *)
Definition set_value (s : accumulator) (pos : nat) (x : bits) : option (nat -> bits) :=
  oguard pos < 2 ^ sa_depth s;
  Some (fun i => if i == pos then x else sa_leaf s i).

(** set_commitment.hpp:75-83 *)
Definition accumulator_add (s : accumulator) (value : bits) : option accumulator :=
  oguard size_ok s value;
  let k := hash value in
  if find_hash (sa_hash_to_pos s) k is Some _ then Some s else
  let pos := size (sa_hash_to_pos s) in
  olet leaf <- set_value s pos k;
  Some (Accumulator leaf ((k, pos) :: sa_hash_to_pos s) (sa_depth s) (sa_value_size s)).

(** set_commitment.hpp:85-89 *)
Definition is_in_set (s : accumulator) (value : bits) : option bool :=
  oguard size_ok s value;
  Some (isSome (find_hash (sa_hash_to_pos s) (hash value))).

(** set_commitment.hpp:91-93 *)
Definition get_commitment (s : accumulator) : bits := merkle_root two_to_one (sa_depth s) (sa_leaf s).

(** set_commitment.hpp:95-105 *)
Definition get_membership_proof (s : accumulator) (value : bits) : option set_membership_proof :=
  olet pos <- find_hash (sa_hash_to_pos s) (hash value);
  Some (SetMembershipProof pos (merkle_path two_to_one (sa_depth s) (sa_leaf s) pos)).

(** A history of additions. *)
Definition accumulator_run (max_entries value_size : nat) (values : seq bits) : option accumulator :=
  olet s <- accumulator_init max_entries value_size; ofold accumulator_add s values.
End SetCommitment.
