(** C11: integer_permutation. *)
From mathcomp Require Import all_ssreflect.
From Verif.Model Require Import Base IntegerPermutation.
From Verif.Proofs Require Import NatTac PermProofs.
Set Implicit Arguments.
Unset Strict Implicit.
Unset Printing Implicit Defensive.

(** [in_range p i]: [i] is one of the elements the object permutes. *)
Definition in_range (p : iperm) (i : nat) := ip_min p <= i <= ip_max p.

(** [is_valid] holds exactly when the contents are a permutation of min_element .. max_element. ([ip_wf]: the range is
    not empty and the vector has one entry per element, as the constructors guarantee.) *)
Theorem C11_is_valid p : ip_wf p ->
  ip_is_valid p = perm_eq (ip_contents p) (iota (ip_min p) (ip_max p - ip_min p + 1)).
Proof. exact: ip_valid_perm. Qed.

(** Fresh objects are valid identities. *)
Theorem C11_identity a b : a <= b ->
  [/\ ip_wf (ip_range a b), ip_is_valid (ip_range a b) & forall i, a <= i <= b -> ip_get (ip_range a b) i = Some i].
Proof.
move=> h; have w := ip_range_wf h; split=> //; first by rewrite ip_valid_perm.
move=> i hi; rewrite ip_get_in //= nth_iota; last by slia.
by rewrite subnKC //; case/andP: hi.
Qed.

(** [set] changes one position and nothing else. *)
Theorem C11_set p i x : ip_wf p -> in_range p i ->
  exists p', [/\ ip_set p i x = Some p', ip_wf p', ip_min p' = ip_min p, ip_max p' = ip_max p &
   forall j, in_range p j -> ip_get p' j = if j == i then Some x else ip_get p j].
Proof. exact: ip_set_ok. Qed.

(** [inverse] of a valid permutation is a valid permutation of the same range, inverse on both sides. *)
Theorem C11_inverse p : ip_wf p -> ip_is_valid p ->
  exists q, [/\ ip_inverse p = Some q, ip_wf q, ip_is_valid q, ip_min q = ip_min p /\ ip_max q = ip_max p &
    forall i j, ip_get p i = Some j <-> ip_get q j = Some i].
Proof.
move=> w v; have [q [e wq h1 h2 h]] := ip_inverse_ok w v; exists q.
have fwd i j : ip_get p i = Some j -> ip_get q j = Some i.
  by move=> g; have [j' [_ g' g'']] := h _ (ip_get_some g); move: g'; rewrite g => -[->].
have surj j : in_range p j -> exists2 i, ip_get p i = Some j & in_range p i.
  move=> hj; move: (v); rewrite ip_valid_perm // => pe.
  have : j \in ip_contents p by rewrite (perm_mem pe) mem_iota /ip_size; move: hj; rewrite /in_range; case: w; slia.
  move=> /(nthP 0) [k hk <-]; have [le sz] := w; rewrite sz /ip_size in hk.
  have hr : in_range p (ip_min p + k) by rewrite /in_range; slia.
  by exists (ip_min p + k)%N => //; rewrite ip_get_in // addKn.
have bwd i j : ip_get q j = Some i -> ip_get p i = Some j.
  move=> g; have hj : in_range p j by rewrite /in_range -h1 -h2; apply: ip_get_some g.
  by have [i' g' _] := surj _ hj; have := fwd _ _ g'; rewrite g => -[->].
split=> //; last by move=> i j; split; [apply: fwd | apply: bwd].
apply: ip_valid_inj => // [j hj|j j' k g g'].
  have hj' : in_range p j by rewrite /in_range -h1 -h2.
  by have [i' g' hi'] := surj _ hj'; exists i'; rewrite ?h1 ?h2 //; apply: fwd.
by have := bwd _ _ g; rewrite (bwd _ _ g') => -[].
Qed.

Theorem C11_inverse_involutive p q : ip_wf p -> ip_is_valid p -> ip_inverse p = Some q -> ip_inverse q = Some p.
Proof.
move=> w v e; have [q' [e' wq vq [h1 h2] h]] := C11_inverse w v.
move: e; rewrite e' => -[eq]; subst q'.
have [r [er wr vr [g1 g2] g]] := C11_inverse wq vq; rewrite er; congr Some.
apply: ip_eq; rewrite ?g1 ?g2 // => i hi.
have hi' : in_range p i by rewrite /in_range -h1 -h2.
have [j e1 e2] := ip_valid_range w v hi'.
by rewrite e1; apply/g/h.
Qed.

(** [slice(a,b)] keeps the images of a..b; if the permutation maps a..b to itself, the slice is a valid permutation. *)
Theorem C11_slice p a b : ip_wf p -> ip_is_valid p -> ip_min p <= a -> a <= b -> b <= ip_max p ->
  exists q, [/\ ip_slice p a b = Some q, ip_wf q, ip_min q = a /\ ip_max q = b,
    forall i, a <= i <= b -> ip_get q i = ip_get p i &
    (forall i j, a <= i <= b -> ip_get p i = Some j -> a <= j <= b) -> ip_is_valid q].
Proof.
move=> w v ha hab hb; have [le sz] := w; rewrite /ip_slice ha hab hb /= sz /ip_size.
have -> : b - ip_min p + 1 <= ip_max p - ip_min p + 1 by slia.
set q := IPerm _ _ _.
have wq : ip_wf q by split=> //=; rewrite size_takel // size_drop sz /ip_size; slia.
have gq i : a <= i <= b -> ip_get q i = ip_get p i.
  move=> hi; rewrite !ip_get_in //=; last by slia.
  rewrite nth_take; last by slia.
  by rewrite nth_drop; congr (Some (nth 0 _ _)); slia.
exists q; split=> // h; apply: ip_valid_inj => // [i hi|i i' j g g'].
  have hi' : ip_min p <= i <= ip_max p by move: hi => /=; slia.
  have [j e _] := ip_valid_range w v hi'.
  by exists j; [rewrite gq | apply: h e].
have hi := ip_get_some g; have hi' := ip_get_some g'.
by rewrite gq // in g; rewrite gq // in g'; apply: ip_valid_injective w v g g'.
Qed.

(** Non-vacuity: a permutation of 3..6, an invalid vector, a slice that is preserved. *)
Example C11_witness :
  let p := IPerm [:: 4; 3; 6; 5] 3 6 in
  ip_wf p /\ ip_is_valid p /\ ip_is_valid (IPerm [:: 4; 3; 4; 5] 3 6) = false /\
  ip_inverse (IPerm [:: 4; 5; 3; 6] 3 6) = Some (IPerm [:: 5; 3; 4; 6] 3 6) /\
  ip_slice p 3 4 = Some (IPerm [:: 4; 3] 3 4) /\ ip_slice p 3 7 = None.
Proof. by []. Qed.

Print Assumptions C11_is_valid.
Print Assumptions C11_identity.
Print Assumptions C11_set.
Print Assumptions C11_inverse.
Print Assumptions C11_inverse_involutive.
Print Assumptions C11_slice.
