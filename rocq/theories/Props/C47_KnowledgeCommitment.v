(** C47: knowledge-commitment vectors do not depend on the number of chunks, and multi-exponentiation over them is
    the full inner product. *)
From mathcomp Require Import all_ssreflect all_algebra.
From Verif.Model Require Import Base KnowledgeCommitment.
From Verif.Proofs Require Import KcProofs.
Set Implicit Arguments.
Unset Strict Implicit.
Unset Printing Implicit Defensive.
Import GRing.Theory.
Local Open Scope ring_scope.

Section C47.
Variables (F : fieldType) (T1 T2 : lmodType F).
Variables (b1 : T1) (b2 : T2) (c1 c2 : F).

(** For every vector and every suggested number of chunks the call succeeds; the result lists exactly the positions
    of the nonzero scalars, in increasing order, each with its pair of multiples of the two bases. *)
Theorem C47_batch_exp (v : seq F) (chunks : nat) :
  exists vec, [/\ kc_batch_exp b1 b2 c1 c2 v chunks = Some vec,
    kv_domain_size vec = size v /\ sorted ltn (kv_indices vec),
    (forall i, i \in kv_indices vec = (i < size v)%N && (nth 0 v i != 0)),
    size (kv_values vec) = size (kv_indices vec) &
    forall k, (k < size (kv_indices vec))%N ->
      let i := nth 0%N (kv_indices vec) k in
      nth (0, 0) (kv_values vec) k = ((c1 * nth 0 v i) *: b1, (c2 * nth 0 v i) *: b2)].
Proof.
eexists; split; [exact: kc_batch_expE | | | |] => //=.
- by split; last exact: kc_support_ok.
- by move=> i; rewrite mem_filter mem_iota add0n /= andbC.
- by rewrite size_map.
- by move=> k lk; rewrite (nth_map 0%N).
Qed.

Theorem C47_chunk_independent (v : seq F) (chunks chunks' : nat) :
  kc_batch_exp b1 b2 c1 c2 v chunks = kc_batch_exp b1 b2 c1 c2 v chunks'.
Proof. by rewrite !kc_batch_expE. Qed.

(** The multi-exponentiation over [lo, hi) of any sparse vector with increasing indices. *)
Theorem C47_multiexp (vec : kc_vector T1 T2) (lo hi : nat) (scalars : seq F) :
  sorted ltn (kv_indices vec) -> size (kv_values vec) = size (kv_indices vec) -> (hi <= lo + size scalars)%N ->
  kc_multiexp_with_mixed_addition vec lo hi scalars =
  Some (\sum_(iv <- zip (kv_indices vec) (kv_values vec) | (lo <= iv.1 < hi)%N) nth 0 scalars (iv.1 - lo) *: iv.2.1,
        \sum_(iv <- zip (kv_indices vec) (kv_values vec) | (lo <= iv.1 < hi)%N) nth 0 scalars (iv.1 - lo) *: iv.2.2).
Proof. by move=> h1 h2; apply: kc_multiexpE; rewrite /kc_ok h1 h2 /=. Qed.

(** Committing to [v] and then multiplying by scalars is the inner product, for every number of chunks. *)
Theorem C47_inner_product (v scalars : seq F) (chunks lo hi : nat) :
  (hi <= lo + size scalars)%N -> (hi <= size v)%N ->
  exists2 vec, kc_batch_exp b1 b2 c1 c2 v chunks = Some vec &
  kc_multiexp_with_mixed_addition vec lo hi scalars
  = Some ((c1 * \sum_(lo <= i < hi) nth 0 v i * nth 0 scalars (i - lo)) *: b1,
          (c2 * \sum_(lo <= i < hi) nth 0 v i * nth 0 scalars (i - lo)) *: b2).
Proof.
move=> h1 h2; have := kc_multiexp_batch b1 b2 c1 c2 chunks h1 h2.
by rewrite kc_batch_expE /= => h; eexists; first reflexivity.
Qed.
End C47.

(** Three chunks over a vector with zeros and a unit; groups F_7 itself. *)
Example C47_witness :
  let K := [fieldType of 'F_7] in
  let V := GRing.regular_lmodType K in
  omap (fun vec : kc_vector V V => (kv_indices vec, kv_values vec))
    (kc_batch_exp (3%:R : V) (2%:R : V) 1 1 ([:: 0; 1; 0; 4%:R; 5%:R; 0; 6%:R] : seq K) 3)
  = Some ([:: 1%N; 3%N; 4%N; 6%N], [:: (3%:R, 2%:R); (5%:R, 1); (1, 3%:R); (4%:R, 5%:R)]).
Proof. by vm_decide. Qed.

Print Assumptions C47_batch_exp.
Print Assumptions C47_chunk_independent.
Print Assumptions C47_multiexp.
Print Assumptions C47_inner_product.
