(** Proofs about folding. *)
From mathcomp Require Import all_ssreflect all_algebra.
From Verif.Model Require Import Base Domain OrderedMap FoldPolynomial.
From Verif.Proofs Require Import NatTac DomainProofs PermProofs TableProofs KzgProofs FieldTac.
Set Implicit Arguments.
Unset Strict Implicit.
Unset Printing Implicit Defensive.
Import GRing.Theory.
Local Open Scope ring_scope.

Section Fold.
Variable F : fieldType.
Add Field Ff_fold : (@ffield_theory F).

(** Folding by pairs *)
Fixpoint fold2 (alpha : F) (s : seq F) : seq F :=
  match s with a :: b :: s' => (a + alpha * b) :: fold2 alpha s' | [:: a] => [:: a] | [::] => [::] end.
Lemma size_fold2 alpha s : size (fold2 alpha s) = uphalf (size s).
Proof.
move: {2}(size s) (leqnn (size s)) => n; elim: n s => [|n ih] [|a [|b s]] //= h; rewrite ih //; slia.
Qed.
Lemma nth_fold2 alpha s i : nth 0 (fold2 alpha s) i = nth 0 s (2 * i) + alpha * nth 0 s (2 * i + 1).
Proof.
move: {2}(size s) (leqnn (size s)) => n; elim: n s i => [|n ih] [|a [|b s]] i //= h.
- by rewrite !nth_nil mulr0 addr0.
- by rewrite !nth_nil mulr0 addr0.
- case: i => [|i]; first by rewrite muln0 /= mulr0 addr0.
  by rewrite mulnS add2n addSn /= !nth_nil mulr0 addr0.
case: i => [|i]; first by rewrite muln0.
by rewrite mulnS add2n addSn /= ih //; slia.
Qed.
Lemma fold2_rcons0 alpha s : odd (size s) -> fold2 alpha (rcons s 0) = fold2 alpha s.
Proof.
move: {2}(size s) (leqnn (size s)) => n; elim: n s => [|n ih] [|a [|b s]] //= h.
  by rewrite mulr0 addr0.
by rewrite negbK => ho; rewrite ih // ltnW.
Qed.
Lemma fold_coefficientsE f alpha : f != [::] -> fold_coefficients f alpha = Some (fold2 alpha f).
Proof.
move=> hf; rewrite /fold_coefficients hf modn2.
have hs : (0 < size f)%N by case: (f) hf.
set fd := if _ then _ else _.
have [e1 e2 e3] : [/\ fold2 alpha fd.1 = fold2 alpha f, size fd.1 = (2 * (fd.2 %/ 2 + 1))%N & size (fold2 alpha f) = (fd.2 %/ 2 + 1)%N].
  have := odd_double_half (size f).-1; rewrite /fd; case: (odd _) => /=; rewrite -muln2 => ho.
    split=> //; first by rewrite divn2; slia.
    by rewrite size_fold2 divn2 -{1}(prednK hs) /= addn1.
  have hodd : odd (size f) by rewrite -(prednK hs) -ho /= oddM andbF.
  rewrite fold2_rcons0 // size_rcons; split=> //.
    by rewrite divn2 (prednK hs); move: (odd_double_half (size f)); rewrite hodd -muln2 /=; move: (half _) => h; slia.
  by rewrite size_fold2 (prednK hs) divn2 uphalf_half hodd addnC.
rewrite -e1 in e3 *; move: e2 e3 => e2 e3; move: (fd.1) (fd.2 %/ 2 + 1)%N e2 e3 => s m e2 e3.
rewrite (@omapM_some _ _ _ (fun i => nth 0 (fold2 alpha s) i)).
  by congr Some; rewrite -[in iota _ _]e3 -/(mkseq _ _) mkseq_nth.
move=> i; rewrite mem_iota add0n => hi.
by rewrite !(vget_nth 0) ?e2 /=; last slia; last slia; rewrite nth_fold2.
Qed.
Lemma fold2_id alpha s (x : F) :
  2%:R * x * (Poly (fold2 alpha s)).[x * x] = (x + alpha) * (Poly s).[x] + (x - alpha) * (Poly s).[- x].
Proof.
rewrite -!pevalE; move: {2}(size s) (leqnn (size s)) => n; elim: n s => [|n ih] [|a [|b s]] //= h; try by fring F.
have /ih {}ih : (size s <= n)%N by slia.
rewrite mulrDr [_ * (x * x * _)]mulrCA ih; by fring F.
Qed.

(** Evaluation form *)
Lemma fold_dfs_loopE (f : seq F) half w acc k n : (k + n <= half)%N -> (half + half <= size f)%N ->
  fold_dfs_loop f half w acc (iota k n) =
  Some [seq 2%:R^-1 * ((1 + acc * w ^+ (i - k)) * nth 0 f i + (1 - acc * w ^+ (i - k)) * nth 0 f (half + i)) | i <- iota k n].
Proof.
move=> + hf; elim: n k acc => [|n ih] k acc hk //=.
rewrite !(vget_nth 0) //=; try slia.
rewrite ih ?subnn ?expr0 ?mulr1 /=; last by slia.
congr (Some (_ :: _)); apply/eq_in_map => i; rewrite mem_iota => /andP[h1 h2].
have -> : (i - k = (i - k.+1).+1)%N by slia.
by rewrite exprS mulrA.
Qed.
End Fold.
