From mathcomp Require Import all_ssreflect.
From Verif.Model Require Import Base OrderedMap MerkleTree.
From Verif.Proofs Require Import NatTac.
Set Implicit Arguments.
Unset Strict Implicit.
Unset Printing Implicit Defensive.

Section Merkle.
Variable D : eqType.
Variable h : D -> D -> D.

(** Two different pairs with the same hash. *)
Definition collision : Prop := exists a b a' b' : D, (a, b) <> (a', b') /\ h a b = h a' b'.

Lemma merkle_fold_path d leaf i : i < 2 ^ d -> merkle_fold h d i (leaf i) (merkle_path h d leaf i) = Some (merkle_root h d leaf).
Proof.
elim: d leaf i => [|d IH] leaf i /=; first by case: i.
rewrite expnS mul2n -addnn => hi; case: ltnP => hd /=; first by rewrite IH.
rewrite -[in leaf i](subnKC hd) -/(right_leaves d leaf (i - 2 ^ d)) IH //.
by rewrite -(ltn_add2r (2 ^ d)) subnK.
Qed.
Lemma size_merkle_path d leaf i : size (merkle_path h d leaf i) = d.
Proof. by elim: d leaf i => [|d IH] leaf i //=; case: ifP => _ /=; rewrite IH. Qed.

Lemma merkle_fold_binding d i x y p q r : merkle_fold h d i x p = Some r -> merkle_fold h d i y q = Some r -> x = y \/ collision.
Proof.
elim: d i p q r => [|d IH] i [|s p] [|t q] r //=; first by move=> [->] [->]; left.
have step (f : D -> D -> D) j : (forall a b a' b', f a b = f a' b' -> (a = a' /\ b = b') \/ collision) ->
    omap (fun r => f r s) (merkle_fold h d j x p) = Some r -> omap (fun r => f r t) (merkle_fold h d j y q) = Some r -> x = y \/ collision.
  move=> hf; case E1 : (merkle_fold h d j x p) => [r1|] //= [e1]; case E2 : (merkle_fold h d j y q) => [r2|] //= [e2].
  by have := hf r1 s r2 t; rewrite e1 e2 => /(_ erefl)[[er _]|c]; [rewrite er in E1; exact: IH E1 E2|right].
case: ltnP => _.
  apply: step => a b a' b' e; case: ((a, b) =P (a', b')) => [[-> ->]|ne]; [by left|right; by exists a, b, a', b'].
apply: (step (fun a b => h b a)) => a b a' b' e; case: ((b, a) =P (b', a')) => [[-> ->]|ne]; [by left|right; by exists b, a, b', a'].
Qed.

Lemma merkle_verify_leaf d leaf i x p : i < 2 ^ d -> merkle_verify h d (merkle_root h d leaf) i x p -> x = leaf i \/ collision.
Proof. by move=> hi /eqP e; exact: merkle_fold_binding e (merkle_fold_path leaf hi). Qed.
Lemma merkle_verify_path d leaf i : i < 2 ^ d -> merkle_verify h d (merkle_root h d leaf) i (leaf i) (merkle_path h d leaf i).
Proof. by move=> hi; rewrite /merkle_verify merkle_fold_path. Qed.

Lemma eq_merkle_root d (leaf leaf' : nat -> D) : (forall i, i < 2 ^ d -> leaf i = leaf' i) -> merkle_root h d leaf = merkle_root h d leaf'.
Proof.
elim: d leaf leaf' => [|d IH] leaf leaf' e /=; first exact: e.
rewrite expnS mul2n -addnn in e; congr (h _ _); apply: IH => i hi; first by apply: e; rewrite ltn_addl.
by apply: e; rewrite ltn_add2l.
Qed.
(** Different leaves give different roots, or a collision. *)
Lemma merkle_root_binding d (leaf leaf' : nat -> D) : merkle_root h d leaf = merkle_root h d leaf' ->
  (forall i, i < 2 ^ d -> leaf i = leaf' i) \/ collision.
Proof.
elim: d leaf leaf' => [|d IH] leaf leaf' /= e; first by left=> -[].
case: ((merkle_root h d leaf, merkle_root h d (right_leaves d leaf)) =P (merkle_root h d leaf', merkle_root h d (right_leaves d leaf'))) => [[e1 e2]|ne]; last first.
  by right; do 4 eexists; split; [exact: ne|exact: e].
case: (IH _ _ e1) => [h1|c]; last by right.
case: (IH _ _ e2) => [h2|c]; last by right.
left=> i; rewrite expnS mul2n -addnn => hi; case: (ltnP i (2 ^ d)) => hd; first exact: h1.
rewrite -(subnKC hd); apply: (h2 (i - 2 ^ d)); by rewrite -(ltn_add2r (2 ^ d)) subnK.
Qed.
End Merkle.
