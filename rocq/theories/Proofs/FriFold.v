(** Folding along the rounds of FRI. *)
From mathcomp Require Import all_ssreflect all_algebra.
From Verif.Model Require Import Base OrderedMap Domain FoldPolynomial MerkleTree Quotient Fri.
From Verif.Spec Require Import FriSpec.
From Verif.Proofs Require Import NatTac FieldTac PermProofs KzgProofs PackingProofs MerkleProofs DomainProofs FoldProofs FriIndex FriLayout.
From Verif.Props Require Import C36_FriFolding.
Set Implicit Arguments.
Unset Strict Implicit.
Unset Printing Implicit Defensive.
Import GRing.Theory.
Local Open Scope ring_scope.

Section Fold.
Variable F : fieldType.
Add Field Ff_frifold : (@ffield_theory F).
Variable unity_root : nat -> F.
Variable K : nat.
Hypothesis roots : roots_ok unity_root K.
Hypothesis two : (2%:R : F) != 0.
Notation dom j := (make_domain unity_root (2 ^ j)).
Notation ur j := (unity_root (2 ^ j)).

Lemma ur_prim j : (j <= K)%N -> (2 ^ j)%N.-primitive_root (ur j).
Proof.
case: roots => hK hs; move=> hj; rewrite -(subKn hj); move: (K - j)%N (leq_subr j K) => i.
elim: i => [|i ih] hi; first by rewrite subn0.
have hi' : (i <= K)%N by exact: ltnW.
have h := ih hi'; rewrite -subnSK // in h; rewrite hs; last by rewrite ltn_subrL (leq_trans _ hi).
have := dvdn_prim_root h (dvdn_exp2l 2 (leqnSn (K - i.+1))).
by rewrite expnS mulnK // expn_gt0.
Qed.
Lemma ur_sq j : (j < K)%N -> ur j = ur j.+1 ^+ 2. Proof. by case: roots => _; apply. Qed.
Lemma ur_neq0 j : (j <= K)%N -> ur j != 0. Proof. by move/ur_prim/prim_neq0. Qed.
Lemma ur_half j : (j < K)%N -> ur j.+1 ^+ (2 ^ j) = -1.
Proof. by move=> hj; apply: prim_half; [rewrite expn_gt0|rewrite -expnS; exact: ur_prim]. Qed.
Lemma size_dom j : size (dom j) = (2 ^ j)%N. Proof. by rewrite size_map size_iota. Qed.
Lemma nth_dom j i : (i < 2 ^ j)%N -> nth 0 (dom j) i = ur j ^+ i.
Proof. by move=> hi; rewrite (nth_map 0%N) ?size_iota // nth_iota. Qed.
Lemma uniq_dom j : (j <= K)%N -> uniq (dom j).
Proof.
move=> hj; rewrite map_inj_in_uniq ?iota_uniq // => a b; rewrite !mem_iota !add0n => /andP[_ ha] /andP[_ hb] /eqP.
by rewrite (eq_prim_root_expr (ur_prim hj)) !modn_small // => /eqP.
Qed.
Lemma vget_dom j i : (i < 2 ^ j)%N -> vget (dom j) i = Some (ur j ^+ i).
Proof. by move=> hi; rewrite (vget_nth 0) ?size_dom // nth_dom. Qed.
Lemma ur_mod j i : (j <= K)%N -> ur j ^+ (i %% 2 ^ j) = ur j ^+ i.
Proof. by move=> hj; apply: (prim_expr_mod (ur_prim hj)). Qed.
Lemma ur_sqr j i : (j < K)%N -> ur j.+1 ^+ i * ur j.+1 ^+ i = ur j ^+ (i %% 2 ^ j).
Proof. by move=> hj; rewrite (ur_mod _ (ltnW hj)) (ur_sq hj) -exprM mul2n -addnn exprD. Qed.
Lemma ur_opp j a : (j < K)%N -> ur j.+1 ^+ (a + 2 ^ j) = - ur j.+1 ^+ a.
Proof. by move=> hj; rewrite exprD ur_half // mulrN1. Qed.

(** ** calculate_s *)
Definition points (j m x : nat) : seq (F * F) :=
  [seq (ur j ^+ a, ur j ^+ get_paired_index a (2 ^ j)) | a <- row (2 ^ j) m x].
Definition ipairs (j m x : nat) : seq (nat * nat) := [seq (a, get_paired_index a (2 ^ j)) | a <- row (2 ^ j) m x].
Lemma calculate_sE j m x : (x < 2 ^ j)%N ->
  calculate_s (ur j ^+ x) x m.+1 (dom j) = Some (points j m x, ipairs j m x).
Proof.
move=> hx; rewrite /calculate_s size_dom coset_indicesE // {1}/obnd.
rewrite omapM_map (omapM_some (g := fun a => (ur j ^+ a, ur j ^+ get_paired_index a (2 ^ j)))); last first.
  move=> _ /mapP[o _ ->] /=; rewrite !vget_dom //= ltn_mod expn_gt0 //.
rewrite {1}/obnd -/(points j m x) (vget_nth (0, 0)) ?size_map ?size_offs ?expn_gt0 // {1}/obnd.
have -> : nth (0, 0) (points j m x) 0 = (ur j ^+ x, ur j ^+ get_paired_index x (2 ^ j)).
  rewrite (nth_map 0%N) ?size_row ?expn_gt0 // (nth_map 0%N) ?size_offs ?expn_gt0 //.
  have -> : nth 0%N (offs (2 ^ j) m) 0 = 0%N.
    by elim: m => //= m ih; rewrite nth_cat size_offs expn_gt0.
  by rewrite addn0 modn_small.
by rewrite eqxx.
Qed.
Lemma calculate_s_inv j (x : F) i m r : calculate_s x i m (dom j) = Some r -> (0 < m)%N ->
  (i < 2 ^ j)%N -> x = ur j ^+ i.
Proof.
case: m => // m h _ hi; move: h; rewrite /calculate_s size_dom coset_indicesE // {1}/obnd.
rewrite omapM_map (omapM_some (g := fun a => (ur j ^+ a, ur j ^+ get_paired_index a (2 ^ j)))); last first.
  move=> _ /mapP[o _ ->] /=; rewrite !vget_dom //= ltn_mod expn_gt0 //.
rewrite {1}/obnd -/(points j m i) (vget_nth (0, 0)) ?size_map ?size_offs ?expn_gt0 // {1}/obnd.
have -> : nth (0, 0) (points j m i) 0 = (ur j ^+ i, ur j ^+ get_paired_index i (2 ^ j)).
  rewrite (nth_map 0%N) ?size_row ?expn_gt0 // (nth_map 0%N) ?size_offs ?expn_gt0 //.
  have -> : nth 0%N (offs (2 ^ j) m) 0 = 0%N.
    by elim: (m) => //= m' ih; rewrite nth_cat size_offs expn_gt0.
  by rewrite addn0 modn_small.
by case: eqP => [<-|].
Qed.
(** A longer row starts with a shorter one. *)
Lemma nth_row n m m' x i : (m' <= m)%N -> (i < 2 ^ m')%N -> nth 0%N (row n m x) i = nth 0%N (row n m' x) i.
Proof.
move=> hm hi; have hi2 : (i < 2 ^ m)%N by rewrite (leq_trans hi) // leq_exp2l.
rewrite !(nth_map 0%N) ?size_offs //; congr ((_ + _) %% _)%N.
elim: m hm {hi2} => [|m ih]; first by rewrite leqn0 => /eqP ->.
rewrite leq_eqVlt => /orP[/eqP -> //|h]; rewrite ltnS in h.
rewrite /= nth_cat size_offs (leq_trans hi) ?leq_exp2l //; exact: ih.
Qed.

(** ** Folding of vectors *)
Lemma line_atE x y y' alpha : x != 0 -> 2%:R * x * line_at x y y' alpha = (x + alpha) * y + (x - alpha) * y' :> F.
Proof.
move=> hx; have hd : 2%:R * x != 0 by rewrite mulf_neq0.
have e1 : x - - x = 2%:R * x by rewrite opprK mulr_natl mulr2n.
have e2 : - x - x = - (2%:R * x) by rewrite -opprD mulr_natl mulr2n.
rewrite /line_at e1 e2 invrN; have := mulfV hd; move: (2%:R * x) (2%:R * x)^-1 => d i h.
have -> : d * (y * ((alpha - - x) * i) + y' * ((alpha - x) * - i)) = d * i * (y * (alpha + x) - y' * (alpha - x)) by fring F.
by rewrite h mul1r; fring F.
Qed.
Lemma on_line_at x y y' alpha (v : F) : x != 0 -> on_line x y y' alpha v -> v = line_at x y y' alpha.
Proof.
move=> hx h; have [l [l1 l2 l3]] := on_line_inhabited y y' two hx.
by rewrite -(h l) //; apply: (on_lineP (line_atE y y' alpha hx)) l l1 l2 l3.
Qed.
(** One folding step of the values on the domain of size 2^(j + 1) *)
Definition fold_vec (j : nat) (alpha : F) (v : seq F) : seq F :=
  [seq line_at (ur j.+1 ^+ a) (nth 0 v a) (nth 0 v (a + 2 ^ j)) alpha | a <- iota 0 (2 ^ j)].
Lemma size_fold_vec j alpha v : size (fold_vec j alpha v) = (2 ^ j)%N. Proof. by rewrite size_map size_iota. Qed.
Lemma nth_fold_vec j alpha v a : (a < 2 ^ j)%N ->
  nth 0 (fold_vec j alpha v) a = line_at (ur j.+1 ^+ a) (nth 0 v a) (nth 0 v (a + 2 ^ j)) alpha.
Proof. by move=> ha; rewrite (nth_map 0%N) ?size_iota // nth_iota. Qed.

(** [f] has the values [v] on the domain of size 2^j, in a form that the rounds can fold. *)
Definition vals (f : fpoly F) (j : nat) (v : seq F) : Prop :=
  match f with
  | Coef c => [/\ c != [::], (size c <= 2 ^ j)%N & v = fft (dom j) c]
  | Dfs u => size u = (2 ^ j)%N /\ v = u
  end.
Lemma vals_size f j v : vals f j v -> size v = (2 ^ j)%N.
Proof. by case: f => [c [_ _ ->]|u [h ->]] //; rewrite size_map size_dom. Qed.
Lemma vals_on f j v : vals f j v -> on_domain unity_root f (dom j) = Some v.
Proof. by case: f => [c [_ h ->]|u [h ->]] /=; rewrite size_dom ?h ?eqxx. Qed.
Lemma nth_fft j c a : (a < 2 ^ j)%N -> nth 0 (fft (dom j) c) a = peval c (ur j ^+ a).
Proof. by move=> ha; rewrite (nth_map 0) ?size_dom // nth_dom. Qed.
Lemma fft_fold j (c g : seq F) alpha : (j < K)%N -> fold_coefficients c alpha = Some g ->
  fft (dom j) g = fold_vec j alpha (fft (dom j.+1) c).
Proof.
move=> hj h; apply: (@eq_from_nth _ 0); first by rewrite size_map size_dom size_fold_vec.
move=> a; rewrite size_map size_dom => ha; rewrite nth_fft // nth_fold_vec //.
have h1 : (a < 2 ^ j.+1)%N by rewrite (leq_trans ha) // leq_exp2l.
have h2 : (a + 2 ^ j < 2 ^ j.+1)%N by rewrite n_double ltn_add2r.
rewrite !nth_fft // ur_opp // ur_sq // -exprM mulnC exprM.
by apply: on_line_at; [rewrite expf_neq0 // ur_neq0|apply: C36_line h => //; rewrite expf_neq0 // ur_neq0].
Qed.
Lemma fold_polyE f j v alpha : (j < K)%N -> vals f j.+1 v ->
  exists2 f', fold_poly f alpha (dom j.+1) = Some f' & vals f' j (fold_vec j alpha v).
Proof.
move=> hj; case: f => [c [c0 hc ->]|u [hu ->]] /=.
  have [g hg sg] := C36_halves alpha c0; exists (Coef g); first by rewrite hg.
  split; last by rewrite (fft_fold _ hg).
    by rewrite -size_eq0 sg; case: (c) c0.
  by rewrite sg; move: hc; rewrite n_double leq_uphalf_double -addnn.
have e : make_domain unity_root (2 ^ j.+1) = domain_of (ur j.+1) (2 * 2 ^ j) by rewrite -expnS.
have hp : (2 * 2 ^ j)%N.-primitive_root (ur j.+1) by rewrite -expnS; apply: ur_prim.
have hsz : size u = (2 * 2 ^ j)%N by rewrite hu expnS.
have hm : (0 < 2 ^ j)%N by rewrite expn_gt0.
have [g hg [sg gl]] := C36_dfs_line alpha two hm hp hsz.
exists (Dfs g); first by rewrite e hg.
split=> //; apply: (@eq_from_nth _ 0); first by rewrite size_fold_vec.
move=> a; rewrite size_fold_vec => ha; rewrite nth_fold_vec //; have [_ l] := gl a ha.
by rewrite addnC; apply/esym/on_line_at; rewrite ?expf_neq0 ?ur_neq0.
Qed.

(** Several steps *)
Fixpoint fold_many (j : nat) (alphas : seq F) (v : seq F) : seq F :=
  if alphas is alpha :: alphas' then fold_many j.-1 alphas' (fold_vec j.-1 alpha v) else v.
(** The values of a polynomial with at most [b] coefficients *)
Definition low (j b : nat) (v : seq F) : Prop := exists c, [/\ c != [::], (size c <= b)%N & v = fft (dom j) c].
Definition halved (b n : nat) : nat := iter n uphalf b.
Lemma low_fold j b alpha v : (j < K)%N -> low j.+1 b v -> low j (uphalf b) (fold_vec j alpha v).
Proof.
move=> hj [c [c0 hc ->]]; have [g hg sg] := C36_halves alpha c0; exists g; split.
- by rewrite -size_eq0 sg; case: (c) c0.
- by rewrite sg; apply: uphalf_leq.
by rewrite (fft_fold _ hg).
Qed.
Lemma low_many j b alphas v : (j <= K)%N -> (size alphas <= j)%N -> low j b v ->
  low (j - size alphas) (halved b (size alphas)) (fold_many j alphas v).
Proof.
elim: alphas j b v => [|alpha s ih] [|j] b v //= hj hs h.
by rewrite subSS /halved -iterS iterSr -/(halved _ _); apply: ih => //; [exact: ltnW|exact: low_fold].
Qed.
Lemma halved_mul b n : (0 < b)%N -> (halved b n * 2 ^ n < b + 2 ^ n)%N.
Proof.
elim: n b => [|n ih] b hb /=; first by rewrite muln1 addn1.
have -> : uphalf (halved b n) = halved (uphalf b) n by rewrite /halved -iterS iterSr.
have := ih (uphalf b); rewrite uphalf_gt0 => /(_ hb); rewrite expnS.
have hu : (2 * uphalf b <= b.+1)%N by have := odd_double_half b; rewrite uphalf_half -mul2n; move: b./2 => x; case: (odd b) => /=; slia.
rewrite mulnCA; move: (halved (uphalf b) n * 2 ^ n)%N hu => q; move: (2 ^ n)%N (uphalf b) => p u hu hh; slia.
Qed.
End Fold.
