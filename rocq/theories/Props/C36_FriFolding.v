(** C36: FRI folding is polynomial folding. *)
From mathcomp Require Import all_ssreflect all_algebra.
From Verif.Model Require Import Base Domain OrderedMap FoldPolynomial.
From Verif.Proofs Require Import NatTac DomainProofs PermProofs TableProofs FoldProofs FieldTac.
Set Implicit Arguments.
Unset Strict Implicit.
Unset Printing Implicit Defensive.
Import GRing.Theory.
Local Open Scope ring_scope.

Section C36.
Variable F : fieldType.
Add Field Ff_c36 : (@ffield_theory F).

(** *** Specification *)
(** [v] is the value at [alpha] of the line through (x, y) and (-x, y'). *)
Definition on_line (x y y' alpha v : F) := forall l : {poly F}, (size l <= 2)%N -> l.[x] = y -> l.[- x] = y' -> l.[alpha] = v.
(** The elements of the multiplicative domain generated by [w]. *)
Definition domain_of (w : F) (n : nat) : seq F := [seq w ^+ i | i <- iota 0 n].

Lemma on_lineP x y y' alpha v : 2%:R * x * v = (x + alpha) * y + (x - alpha) * y' -> (2%:R : F) != 0 -> x != 0 -> on_line x y y' alpha v.
Proof.
move=> h h2 hx l hl h3 h4; have nz : 2%:R * x != 0 by rewrite mulf_neq0.
have el t : l.[t] = l`_0 + l`_1 * t.
  by rewrite (horner_coef_wide t hl) !big_ord_recl big_ord0 /= expr0 mulr1 addr0 expr1.
apply: (mulfI nz); rewrite h -h3 -h4 !el; by fring F.
Qed.
(** The line exists: the specification is not vacuous. *)
Lemma on_line_inhabited x y y' : (2%:R : F) != 0 -> x != 0 -> exists l : {poly F}, [/\ (size l <= 2)%N, l.[x] = y & l.[- x] = y'].
Proof.
move=> h2 hx; exists (Poly [:: (y + y') / 2%:R; (y - y') / (2%:R * x)]); split; first exact: size_Poly.
- by rewrite -pevalE /=; ffield F; rewrite ?hx ?h2.
by rewrite -pevalE /=; ffield F; rewrite ?hx ?h2.
Qed.

(** The folding of coefficients is defined for every non-empty vector; it halves the number of coefficients. *)
Theorem C36_halves (f : seq F) (alpha : F) : f != [::] ->
  exists2 g, fold_coefficients f alpha = Some g & size g = uphalf (size f).
Proof. by move=> h; exists (fold2 alpha f); rewrite ?fold_coefficientsE // size_fold2. Qed.

(** Its value at x^2 is on the line through (x, f(x)) and (-x, f(-x)). *)
Theorem C36_line (f g : seq F) (alpha x : F) : (2%:R : F) != 0 -> x != 0 -> fold_coefficients f alpha = Some g ->
  on_line x (peval f x) (peval f (- x)) alpha (peval g (x ^+ 2)).
Proof.
move=> h2 hx; case: (eqVneq f [::]) => [-> //|hf]; rewrite fold_coefficientsE // => -[<-].
by apply: on_lineP => //; rewrite !pevalE expr2 fold2_id.
Qed.

Lemma prim_neq0 (w : F) n : n.-primitive_root w -> w != 0.
Proof.
move=> hw; apply/eqP => w0; have := prim_expr_order hw; have := prim_order_gt0 hw; rewrite w0 expr0n.
by case: n {hw} => // n _ /eqP; rewrite eq_sym oner_eq0.
Qed.
Lemma prim_half (w : F) m : (0 < m)%N -> (2 * m)%N.-primitive_root w -> w ^+ m = -1.
Proof.
move=> hm hw; apply/eqP; rewrite -addr_eq0; have : (w ^+ m - 1) * (w ^+ m + 1) == 0.
  by rewrite -subr_sqr_1 -exprM mulnC prim_expr_order // subrr.
rewrite mulf_eq0 => /orP[|//]; rewrite subr_eq0 -(prim_order_dvd hw) => /dvdn_leq -/(_ hm); slia.
Qed.
(** Folding in evaluation form, of any vector of values on a domain of even size: the i-th value is on the line through the
    i-th value and the one at the opposite point. *)
Theorem C36_dfs_line (c : seq F) (alpha w : F) m : (2%:R : F) != 0 -> (0 < m)%N -> (2 * m)%N.-primitive_root w ->
  size c = (2 * m)%N -> exists2 g, fold_dfs c alpha (domain_of w (2 * m)) = Some g & size g = m /\
   forall i, (i < m)%N -> w ^+ (m + i) = - w ^+ i /\ on_line (w ^+ i) (nth 0 c i) (nth 0 c (m + i)) alpha (nth 0 g i).
Proof.
move=> h2 hm hw hc; have w0 := prim_neq0 hw.
rewrite /fold_dfs /domain_of (vget_nth 0) /= size_map size_iota; last by slia.
rewrite (nth_map 0%N) ?size_iota ?nth_iota; try slia.
have wi : w ^+ (0 + (2 * m - 1)) = w^-1.
  apply: (mulIf w0); rewrite mulVf // -exprSr; have -> : ((0 + (2 * m - 1)).+1 = 2 * m)%N by slia.
  exact: prim_expr_order hw.
rewrite wi; have -> : ((2 * m) %/ 2 = m)%N by rewrite mulKn.
rewrite fold_dfs_loopE ?hc //; last by slia.
eexists; first by []; rewrite size_map size_iota; split=> // i hi.
split; first by rewrite exprD (prim_half hm hw) mulN1r.
apply: on_lineP => //; last exact: expf_neq0.
rewrite (nth_map 0%N) ?size_iota // nth_iota // add0n subn0.
have hx : w ^+ i * w^-1 ^+ i = 1 by rewrite -exprMn mulfV // expr1n.
move: (w ^+ i) (w^-1 ^+ i) hx => a b hx.
rewrite mulrA [2%:R * a]mulrC mulfK //.
have e1 p : a * p * b = p by rewrite -mulrA mulrCA hx mulr1.
transitivity ((a + alpha * (a * b)) * nth 0 c i + (a - alpha * (a * b)) * nth 0 c (m + i)); last by rewrite hx mulr1.
by fring F.
Qed.

(** The two forms agree: folding the values of a polynomial on a domain gives the values of the folded polynomial on the
    domain of the squares. *)
Theorem C36_agree (f g : seq F) (alpha w : F) m : (2%:R : F) != 0 -> (0 < m)%N -> (2 * m)%N.-primitive_root w ->
  fold_coefficients f alpha = Some g ->
  fold_dfs (fft (domain_of w (2 * m)) f) alpha (domain_of w (2 * m)) = Some (fft (domain_of (w ^+ 2) m) g).
Proof.
move=> h2 hm hw hg.
have sz : size (fft (domain_of w (2 * m)) f) = (2 * m)%N by rewrite !size_map size_iota.
have nf i : (i < 2 * m)%N -> nth 0 (fft (domain_of w (2 * m)) f) i = peval f (w ^+ i).
  by move=> hi; rewrite (nth_map 0) ?size_map ?size_iota // (nth_map 0%N) ?size_iota // nth_iota.
have [g' -> [sg hl]] := C36_dfs_line alpha h2 hm hw sz; congr Some.
apply: (@eq_from_nth _ 0); first by rewrite sg !size_map size_iota.
rewrite sg => i hi; have [e1 h1] := hl i hi.
rewrite (nth_map 0) ?size_map ?size_iota // (nth_map 0%N) ?size_iota // nth_iota // add0n.
have w0 : w ^+ i != 0 by apply: expf_neq0; exact: prim_neq0 hw.
have hg' := C36_line h2 w0 hg.
have [l [sl l1 l2]] := on_line_inhabited (peval f (w ^+ i)) (peval f (- w ^+ i)) h2 w0.
rewrite -exprM mulnC exprM -(hg' l sl l1 l2) (h1 l) // nf ?l1 //; try slia.
by rewrite e1.
Qed.
End C36.

Example C36_witness : let F := [fieldType of 'F_17] in let w : F := 2 in
  [/\ (2%:R : F) != 0, (2 * 4)%N.-primitive_root w,
      fold_coefficients [:: (3 : F); 1; 4; 1; 5] 6 = Some [:: 9; 10; 5] &
      fold_dfs (fft (domain_of w 8) [:: (3 : F); 1; 4; 1; 5]) 6 (domain_of w 8) = Some (fft (domain_of (w ^+ 2) 4) [:: 9; 10; 5])].
Proof.
move=> F w; split; try by apply/eqP; vm_decide.
apply/andP; split=> //; apply/forallP => -[i hi]; rewrite unity_rootE /=.
by do 8 (case: i hi => [|i] hi; first vm_decide).
Qed.

Print Assumptions C36_halves.
Print Assumptions C36_line.
Print Assumptions C36_dfs_line.
Print Assumptions C36_agree.
