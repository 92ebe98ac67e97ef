(** C48: after any sequence of [add] calls [is_in_set] answers exactly for the added elements and [get_membership_proof]
    verifies against the current root for each of them. *)
From mathcomp Require Import all_ssreflect.
From Verif.Model Require Import Base OrderedMap MerkleTree SetCommitment.
From Verif.Proofs Require Import NatTac MerkleProofs PackingProofs.
Set Implicit Arguments.
Unset Strict Implicit.
Unset Printing Implicit Defensive.

Section SetCommitment.
Variables (hash : bits -> bits) (two_to_one : bits -> bits -> bits) (digest_size : nat).
Notation run := (accumulator_run hash digest_size).
Notation commitment := (get_commitment two_to_one).
Notation prove := (get_membership_proof hash two_to_one).
Notation member := (is_in_set hash).
Implicit Types (s : accumulator) (v w : bits) (vs : seq bits).

(** Acceptance of a membership proof for [v] against a commitment to a set with depth [d]. *)
Definition accepts (d : nat) (c : bits) v (p : set_membership_proof) : bool :=
  (sm_address p < 2 ^ d) && merkle_verify two_to_one d c (sm_address p) (hash v) (sm_path p).
(** The accepted sizes of values. *)
Definition right_size (value_size : nat) v : bool := (value_size == 0) || (size v == value_size).

(** Invariant: the map has the hashes of the added values, each at its own leaf, and the other leaves are zero. *)
Definition inv (max_entries value_size : nat) vs s : Prop :=
  [/\ sa_depth s = up_log 2 max_entries, sa_value_size s = value_size,
      uniq [seq e.1 | e <- sa_hash_to_pos s] /\ [seq e.1 | e <- sa_hash_to_pos s] =i [seq hash v | v <- vs],
      forall k p, find_hash (sa_hash_to_pos s) k = Some p -> [/\ p < size (sa_hash_to_pos s), p < 2 ^ sa_depth s & sa_leaf s p = k] &
      forall i, size (sa_hash_to_pos s) <= i -> sa_leaf s i = nseq digest_size false] /\
  (forall i, i < size (sa_hash_to_pos s) -> sa_leaf s i \in [seq e.1 | e <- sa_hash_to_pos s]).

Lemma find_hashP (m : seq (bits * nat)) k : isSome (find_hash m k) = (k \in [seq e.1 | e <- m]).
Proof. by elim: m => [|[k' p] m IH] //=; rewrite inE eq_sym; case: eqP. Qed.

Lemma inv_run me vsz vs s : run me vsz vs = Some s -> inv me vsz vs s.
Proof.
rewrite /accumulator_run /accumulator_init; case: ifP => //= me0; apply: ofold_inv => // {}vs v st st' [[h1 h2 [h3 h3'] h4 h5] h6].
rewrite /accumulator_add; case: ifP => // hs; case E : (find_hash _ _) => [p|].
  case=> <-; split=> //; split=> //; split=> // k; rewrite h3' map_rcons mem_rcons inE.
  have : hash v \in [seq e.1 | e <- sa_hash_to_pos st] by rewrite -find_hashP E.
  by rewrite h3' => hv; case: eqP => [->|].
rewrite /set_value; case: ifP => //= hp [<-]; have hni : hash v \notin [seq e.1 | e <- sa_hash_to_pos st] by rewrite -find_hashP E.
split; last first.
  move=> i; rewrite /= ltnS leq_eqVlt inE => /orP[/eqP->|hi]; first by rewrite eqxx eqxx.
  by rewrite (ltn_eqF hi) (h6 _ hi) orbT.
split=> //=.
- by rewrite hni h3; split=> // k; rewrite inE map_rcons mem_rcons inE h3'.
- move=> k p; case: eqP => [<- [<-]|_ /h4[p1 p2 p3]]; first by rewrite ltnSn eqxx.
  by rewrite (leqW p1) (ltn_eqF p1).
by move=> i hi; rewrite (gtn_eqF hi); exact: h5 (ltnW hi).
Qed.

(** [is_in_set] answers for the added elements: those whose hash is the hash of an added element. *)
Theorem C48_membership me vsz vs s v : run me vsz vs = Some s -> right_size vsz v ->
  member s v = Some (has (fun w => hash w == hash v) vs).
Proof.
move=> /inv_run[[_ h2 [_ h3] _ _] _] hv; rewrite /is_in_set /size_ok h2 -/(right_size vsz v) hv; congr Some.
rewrite find_hashP h3; apply/mapP/hasP => [[w hw ->]|[w hw /eqP<-]]; by exists w.
Qed.
(** Up to collisions of the hash function these are the added elements. *)
Corollary C48_membership_exact me vsz vs s v : run me vsz vs = Some s -> right_size vsz v ->
  {in vs, forall w, hash w = hash v -> w = v} -> member s v = Some (v \in vs).
Proof.
move=> hr hv hinj; rewrite (C48_membership hr hv); congr Some; apply/hasP/idP => [[w hw /eqP e]|h]; last by exists v.
by rewrite -(hinj w hw e).
Qed.

(** The membership proof of every added element verifies against the current commitment. *)
Theorem C48_complete me vsz vs s v : run me vsz vs = Some s -> v \in vs ->
  exists2 p, prove s v = Some p & accepts (up_log 2 me) (commitment s) v p.
Proof.
move=> /inv_run[[h1 _ [_ h3] h4 _] _] hv; rewrite /get_membership_proof.
have: isSome (find_hash (sa_hash_to_pos s) (hash v)) by rewrite find_hashP h3 map_f.
case E : (find_hash _ _) => [p|] // _; have [p1 p2 p3] := h4 _ _ E.
eexists; first by []; by rewrite /accepts /= /get_commitment -h1 p2 -p3 merkle_verify_path.
Qed.

(** An accepted proof is for an added element, for the digest of an empty leaf, or exhibits a collision. *)
Theorem C48_sound me vsz vs s v p : run me vsz vs = Some s -> accepts (up_log 2 me) (commitment s) v p ->
  [\/ has (fun w => hash w == hash v) vs, hash v = nseq digest_size false | collision two_to_one].
Proof.
move=> /inv_run[[h1 _ [_ h3] _ h5] h6] /andP[hp]; rewrite /get_commitment h1 => hv.
case: (merkle_verify_leaf hp hv) => [e|c]; last by constructor 3.
case: (ltnP (sm_address p) (size (sa_hash_to_pos s))) => hi; last by constructor 2; rewrite e h5.
constructor 1; have := h6 _ hi; rewrite h3 -e => /mapP[w hw ->]; apply/hasP; by exists w.
Qed.

(** Additions succeed as long as the values have the right size and there are at most [max_entries] different hashes. *)
Theorem C48_succeeds me vsz vs : 0 < me -> all (right_size vsz) vs -> size (undup [seq hash v | v <- vs]) <= me ->
  exists s, run me vsz vs = Some s.
Proof.
move=> me0; elim/last_ind: vs => [|vs v IH]; first by rewrite /accumulator_run /accumulator_init me0 => _ _; eexists.
rewrite all_rcons map_rcons => /andP[hv hvs] hsz.
have hsub : size (undup [seq hash w | w <- vs]) <= size (undup (rcons [seq hash w | w <- vs] (hash v))).
  by apply: uniq_leq_size (undup_uniq _) _ => x; rewrite !mem_undup mem_rcons inE => ->; rewrite orbT.
have [s hs] := IH hvs (leq_trans hsub hsz).
have [[h1 h2 [h3 h3'] _ _] _] := inv_run hs; move: hs.
rewrite /accumulator_run; case: (accumulator_init _ _ _) => //= s0 hs.
rewrite ofold_rcons hs /= /accumulator_add /size_ok h2 -/(right_size vsz v) hv.
case E : (find_hash _ _) => [p|]; first by eexists.
rewrite /set_value h1; have -> : size (sa_hash_to_pos s) < 2 ^ up_log 2 me; last by eexists.
apply: leq_trans (up_logP me (isT : 1 < 2)); apply: leq_trans hsz.
have hni : hash v \notin [seq e.1 | e <- sa_hash_to_pos s] by rewrite -find_hashP E.
have := @uniq_leq_size _ (hash v :: [seq e.1 | e <- sa_hash_to_pos s]) (undup (rcons [seq hash w | w <- vs] (hash v))).
rewrite /= hni h3 size_map; apply=> // x; rewrite inE mem_undup mem_rcons inE h3'; by [].
Qed.

(** Adding an element again changes nothing. *)
Theorem C48_idempotent me vsz vs s v : run me vsz vs = Some s -> right_size vsz v -> v \in vs -> accumulator_add hash s v = Some s.
Proof.
move=> /inv_run[[_ h2 [_ h3] _ _] _] hv hin; rewrite /accumulator_add /size_ok h2 -/(right_size vsz v) hv.
have: isSome (find_hash (sa_hash_to_pos s) (hash v)) by rewrite find_hashP h3 map_f.
by case: (find_hash _ _).
Qed.
(** Two histories with the same commitment added the same hashes (up to the digest of an empty leaf), or exhibit a collision. *)
Theorem C48_commitment_binding me vsz vs vs' s s' : run me vsz vs = Some s -> run me vsz vs' = Some s' -> commitment s = commitment s' ->
  (forall v, v \in vs -> hash v <> nseq digest_size false -> has (fun w => hash w == hash v) vs') \/ collision two_to_one.
Proof.
move=> /inv_run[[h1 _ [_ h3] h4 _] _] /inv_run[[h1' _ [_ h3'] _ h5'] h6']; rewrite /get_commitment h1 h1'.
move=> /merkle_root_binding[e|c]; [left=> v hv hz|by right].
have: isSome (find_hash (sa_hash_to_pos s) (hash v)) by rewrite find_hashP h3 map_f.
case E : (find_hash _ _) => [p|] // _; have [_ p2 p3] := h4 _ _ E; rewrite h1 in p2.
move: p3; rewrite (e _ p2) => p3; case: (ltnP p (size (sa_hash_to_pos s'))) => hi; last by case: hz; rewrite -p3 h5'.
have := h6' _ hi; rewrite h3' p3 => /mapP[w hw ->]; apply/hasP; by exists w.
Qed.
End SetCommitment.

(** Finding: the number of entries is not limited by [max_entries] but by the next power of two. *)
Theorem C48_max_entries_refuted : exists hash digest_size me vs s, me < size (undup [seq hash v | v <- vs]) /\
  accumulator_run hash digest_size me 0 vs = Some s.
Proof.
exists id, 2, 3, [:: [:: true]; [:: false]; [:: true; true]; [:: true; false]].
by eexists; split; [|vm_compute; reflexivity].
Qed.

Definition example_hash (a b : bits) : bits := true :: (a ++ false :: b).
Example C48_example : exists s, accumulator_run id 1 3 2 [:: [:: true; true]; [:: true; false]; [:: true; true]] = Some s /\
  [/\ is_in_set id s [:: true; false] = Some true, is_in_set id s [:: false; false] = Some false,
      accepts id example_hash 2 (get_commitment example_hash s) [:: true; false]
        (SetMembershipProof 1 [:: example_hash [:: false] [:: false]; [:: true; true]]) &
      ~~ accepts id example_hash 2 (get_commitment example_hash s) [:: true; false]
        (SetMembershipProof 0 [:: example_hash [:: false] [:: false]; [:: true; true]])].
Proof. by eexists; split; [vm_compute; reflexivity|split]. Qed.

Print Assumptions C48_membership.
Print Assumptions C48_membership_exact.
Print Assumptions C48_complete.
Print Assumptions C48_sound.
Print Assumptions C48_succeeds.
Print Assumptions C48_idempotent.
Print Assumptions C48_commitment_binding.
Print Assumptions C48_max_entries_refuted.
