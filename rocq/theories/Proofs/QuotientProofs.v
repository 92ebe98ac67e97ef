(** Lemmas about the quotient splitting of Model/Quotient.v. *)
From mathcomp Require Import all_ssreflect all_algebra.
From Verif.Model Require Import Base OrderedMap Quotient.
From Verif.Proofs Require Import NatTac FieldTac.
Set Implicit Arguments.
Unset Strict Implicit.
Unset Printing Implicit Defensive.
Import GRing.Theory.
Local Open Scope ring_scope.

Lemma foldl_sumE (V : zmodType) (A : Type) (c : A -> V) l a : foldl (fun s j => s + c j) a l = a + \sum_(j <- l) c j.
Proof. by elim: l a => [|j l ih] a /=; rewrite ?big_nil ?addr0 // ih big_cons addrA. Qed.

Section Quot.
Variable F : fieldType.
Add Field Ff_quot : (@ffield_theory F).
Implicit Types (f : seq F) (y : F).

Lemma horner_Poly_cat (a b : seq F) y : (Poly (a ++ b)).[y] = (Poly a).[y] + y ^+ size a * (Poly b).[y].
Proof.
elim: a => [|x a ih] /=; first by rewrite horner0 expr0 mul1r add0r.
rewrite !horner_cons ih exprS; move: (_ ^+ _) (_.[y]) (_.[y]) => u v w; fring F.
Qed.

(** ceiling division *)
Definition ceil_div (a b : nat) : nat := ((a + b.-1) %/ b)%N.

Lemma ceil_div0 b : (0 < b)%N -> ceil_div 0 b = 0%N.
Proof. by case: b => // b _; rewrite /ceil_div add0n divn_small. Qed.
Lemma ceil_divD a b : (0 < b)%N -> (b <= a)%N -> ceil_div a b = (ceil_div (a - b) b).+1.
Proof.
move=> b0 h; rewrite /ceil_div -{1}(subnK h) addnAC divnDr ?divnn ?b0 ?addn1 //.
Qed.
Lemma ceil_div_small a b : (0 < a)%N -> (a <= b)%N -> ceil_div a b = 1%N.
Proof.
move=> a0 h; have b0 : (0 < b)%N by apply: leq_trans h.
rewrite /ceil_div; have -> : (a + b.-1 = a.-1 + b)%N by slia.
rewrite divnDr // divnn b0 divn_small //; slia.
Qed.
Lemma ceil_div_le a b c : (0 < b)%N -> (ceil_div a b <= c)%N = (a <= c * b)%N.
Proof.
move=> b0; rewrite /ceil_div -ltnS ltn_divLR // mulSn -ltnS.
apply/idP/idP; move: (c * b)%N => n; slia.
Qed.

Lemma split_loop_flatten fuel f c i : (size f - i <= fuel)%N -> (0 < c)%N -> flatten (split_loop fuel f c i) = drop i f.
Proof.
elim: fuel i => [|n ih] i h c0 /=; first by rewrite drop_oversize //; slia.
case: ltnP => hi; last by rewrite drop_oversize.
rewrite /= ih //; last by slia.
rewrite addnC -drop_drop; case: (leqP (c + i) (size f)) => hc.
  by rewrite addnK cat_take_drop.
by rewrite -size_drop take_size [drop c _]drop_oversize ?cats0 // size_drop; slia.
Qed.
Lemma split_loop_sizes fuel f c i s : (0 < c)%N -> s \in split_loop fuel f c i -> (0 < size s <= c)%N.
Proof.
move=> c0; elim: fuel i => //= n ih i; case: ltnP => // hi; rewrite inE => /orP[/eqP->|]; last exact: ih.
rewrite size_take size_drop; set m := minn _ _; have hm : (m <= size f)%N /\ (m <= i + c)%N /\ (i < m)%N.
  by rewrite /m geq_minl geq_minr leq_min hi; rewrite -[X in (X < _)%N]addn0 ltn_add2l c0.
move: hm; clearbody m; case=> h1 [h2 h3]; clear ih.
move: hi h1; rewrite -![size f]/(@size F f); move: (@size F f) => sz hi h1.
by case: (ltnP (m - i)) => h4; slia.
Qed.
Lemma size_split_loop fuel f c i : (size f - i <= fuel)%N -> (0 < c)%N -> size (split_loop fuel f c i) = ceil_div (size f - i) c.
Proof.
move=> h c0; elim: fuel i h => [|n ih] i h /=; first by (have -> : (size f - i = 0)%N by slia); rewrite ceil_div0.
case: ltnP => hi; last by (have -> : (size f - i = 0)%N by slia); rewrite ceil_div0.
rewrite /= ih; last by slia.
case: (leqP c (size f - i)) => hc; first by rewrite (ceil_divD c0 hc) subnDA.
rewrite (ceil_div_small _ (ltnW hc)); last by slia.
by (have -> : (size f - (i + c) = 0)%N by slia); rewrite ceil_div0.
Qed.
Lemma split_loop_horner fuel f c i y : (size f - i <= fuel)%N -> (0 < c)%N ->
  \sum_(0 <= k < size (split_loop fuel f c i)) (Poly (nth [::] (split_loop fuel f c i) k)).[y] * y ^+ (c * k) = (Poly (drop i f)).[y].
Proof.
move=> h c0; elim: fuel i h => [|n ih] i h /=.
  by rewrite big_nil drop_oversize ?horner0 //; slia.
case: ltnP => hi; last by rewrite big_nil drop_oversize ?horner0.
rewrite /= big_nat_recl //= muln0 expr0 mulr1.
rewrite (eq_bigr (fun k => y ^+ c * ((Poly (nth [::] (split_loop n f c (i + c)) k)).[y] * y ^+ (c * k)))); last first.
  by move=> k _; rewrite mulnS exprD mulrCA.
rewrite -big_distrr /= ih; last by slia.
case: (leqP (size f) (i + c)) => hc.
  by rewrite -size_drop take_size [drop (i + c) f]drop_oversize //= horner0 mulr0 addr0.
rewrite [(i + c)%N]addnC addnK -drop_drop -[in RHS](cat_take_drop c (drop i f)) horner_Poly_cat size_takel //.
by rewrite size_drop; slia.
Qed.

Lemma recombineE rows y (ts : seq F) : recombine rows y ts = \sum_(0 <= i < size ts) nth 0 ts i * y ^+ (rows * i).
Proof.
rewrite /recombine (foldl_sumE (fun it : nat * F => it.2 * y ^+ (rows * it.1))) add0r.
rewrite (big_nth (0%N, 0)) size_zip size_iota minnn; apply: eq_big_nat => i /andP[_ hi].
by rewrite nth_zip ?size_iota //= nth_iota.
Qed.

Lemma coefficientsK (p : {poly F}) : Poly (coefficients p) = p.
Proof. by rewrite /coefficients; case: eqP => [->|_]; rewrite ?polyseqK //= cons_poly_def mul0r add0r. Qed.
Lemma size_coefficients (p : {poly F}) : size (coefficients p) = maxn 1 (size p).
Proof.
rewrite /coefficients; case: eqP => [->|/eqP h]; first by rewrite size_poly0.
by rewrite (maxn_idPr _) // size_poly_gt0.
Qed.
End Quot.
