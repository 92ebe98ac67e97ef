(** Model of commitments/polynomial/knowledge_commitment{,_multiexp}.hpp.
    Groups are written additively, as modules over the scalar field [F]; [windowed_exp] on a table of the base [b]
    (crypto3-algebra) is multiplication of [b] by the scalar, [multiexp] is the sum of the products. *)
From mathcomp Require Import all_ssreflect all_algebra.
From Verif.Model Require Import Base.
Set Implicit Arguments.
Unset Strict Implicit.
Unset Printing Implicit Defensive.
Import GRing.Theory.
Local Open Scope ring_scope.

(** algebra::multiexp (crypto3-algebra): sum of scalar_i * base_i over the common length. *)
Fixpoint multiexp (F : fieldType) (V : lmodType F) (g : seq V) (p : seq F) : V :=
  match g, p with x :: g', c :: p' => c *: x + multiexp g' p' | _, _ => 0 end.

Section Kc.
Variables (F : fieldType) (T1 T2 : lmodType F).

(** detail/polynomial/element_knowledge_commitment.hpp: a knowledge commitment (g, h), added componentwise. *)
Definition kc := (T1 * T2)%type.

(** container::sparse_vector (another repository): parallel vectors of indices and values. *)
Record kc_vector := KcVector { kv_indices : seq nat; kv_values : seq (T1 * T2); kv_domain_size : nat }.

(** knowledge_commitment_multiexp.hpp:70-71 [std::lower_bound] on the (sorted) indices *)
Definition lower_bound (idx : seq nat) (x : nat) : nat := find (fun i => (x <= i)%N) idx.

(** knowledge_commitment_multiexp.hpp:84-104 the loop: sum of the values with scalar one, and the postponed
    (scalar, value) pairs. Reading a scalar out of range is [None]. *)
Fixpoint kc_loop (min_idx max_idx : nat) (idx : seq nat) (vals : seq (T1 * T2)) (scalars : seq F)
    (acc : T1 * T2) (p : seq F) (g : seq (T1 * T2)) : option ((T1 * T2) * seq F * seq (T1 * T2)) :=
  match idx, vals with
  | [::], _ => Some (acc, p, g)
  | i :: idx', v :: vals' =>
    if (i < max_idx)%N then
      obnd (vget scalars (i - min_idx)) (fun s =>
      if s == 0 then kc_loop min_idx max_idx idx' vals' scalars acc p g
      else if s == 1 then kc_loop min_idx max_idx idx' vals' scalars (acc.1 + v.1, acc.2 + v.2) p g
      else kc_loop min_idx max_idx idx' vals' scalars acc (rcons p s) (rcons g v))
    else Some (acc, p, g)
  | _ :: _, [::] => None
  end.

(** knowledge_commitment_multiexp.hpp:57-108 [kc_multiexp_with_mixed_addition] *)
Definition kc_multiexp_with_mixed_addition (vec : kc_vector) (min_idx max_idx : nat) (scalars : seq F)
    : option (T1 * T2) :=
  let offset := lower_bound (kv_indices vec) min_idx in
  omap (fun r => let: (acc, p, g) := r in
                 (acc.1 + multiexp [seq x.1 | x <- g] p, acc.2 + multiexp [seq x.2 | x <- g] p))
       (kc_loop min_idx max_idx (drop offset (kv_indices vec)) (drop offset (kv_values vec)) scalars (0, 0) [::] [::]).

(** knowledge_commitment_multiexp.hpp:110-140 [kc_batch_exp_internal] on positions [start, stop);
    [None] if start > stop (the C++ loop would run past the end) or a position is out of range *)
Definition kc_batch_exp_internal (b1 : T1) (b2 : T2) (c1 c2 : F) (v : seq F) (start stop : nat) : option kc_vector :=
  if (start <= stop)%N && (stop <= size v)%N then
    let idx := [seq pos <- iota start (stop - start) | nth 0 v pos != 0] in
    Some (KcVector idx [seq ((c1 * nth 0 v pos) *: b1, (c2 * nth 0 v pos) *: b2) | pos <- idx] 0)
  else None.

(** knowledge_commitment_multiexp.hpp:169-180 the loop computing chunk_pos *)
Fixpoint chunk_loop (v : seq F) (i cnt chunkno chunk_size num_chunks : nat) (pos : seq nat) : option (seq nat) :=
  match v with
  | [::] => Some pos
  | x :: v' =>
    let cnt' := (cnt + (x != 0)%R)%N in
    if (cnt' == chunk_size) && (chunkno < num_chunks)%N then
      obnd (vset pos chunkno i) (fun pos' => chunk_loop v' i.+1 0 chunkno.+1 chunk_size num_chunks pos')
    else chunk_loop v' i.+1 cnt' chunkno chunk_size num_chunks pos
  end.

(** knowledge_commitment_multiexp.hpp:142-206 [kc_batch_exp] (the parallel loop writes disjoint slots, so it is
    modelled sequentially; batch_to_special normalises representations and does not change group elements) *)
Definition kc_batch_exp (b1 : T1) (b2 : T2) (c1 c2 : F) (v : seq F) (suggested_num_chunks : nat) : option kc_vector :=
  let nonzero := count (fun x => x != 0) v in
  let num_chunks := maxn 1 (minn nonzero suggested_num_chunks) in
  let chunk_size := (nonzero %/ num_chunks)%N in
  obnd (chunk_loop v 0 0 1 chunk_size num_chunks (nseq num_chunks.+1 0%N)) (fun pos0 =>
  obnd (vset pos0 num_chunks (size v)) (fun pos =>
  obnd (ofold (fun (r : seq kc_vector) i =>
          omap (rcons r) (kc_batch_exp_internal b1 b2 c1 c2 v (nth 0%N pos i) (nth 0%N pos i.+1)))
        [::] (iota 0 num_chunks)) (fun tmp =>
  if num_chunks == 1%N then
    Some (KcVector (kv_indices (head (KcVector [::] [::] 0) tmp)) (kv_values (head (KcVector [::] [::] 0) tmp)) (size v))
  else
    Some (KcVector (flatten [seq kv_indices t | t <- tmp]) (flatten [seq kv_values t | t <- tmp]) (size v))))).

End Kc.
