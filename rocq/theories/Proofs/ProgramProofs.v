(** Shared reasoning for the QAP/SAP/SSP reductions. *)
From mathcomp Require Import all_ssreflect all_algebra.
From Verif.Model Require Import Base LinearCombination ConstraintSystems Domain ArithmeticPrograms.
From Verif.Spec Require Import LinearSpec.
From Verif.Proofs Require Import LinearProofs DomainProofs.
Set Implicit Arguments.
Unset Strict Implicit.
Unset Printing Implicit Defensive.
Import GRing.Theory.
Local Open Scope ring_scope.

Section PP.
Variable F : fieldType.
Implicit Types (pts v w : seq F) (c x t g : F) (p : {poly F}).

Lemma Poly_nthP (s s' : seq F) : (forall k, nth 0 s k = nth 0 s' k) -> Poly s = Poly s'.
Proof. by move=> h; apply/polyP => i; rewrite !coef_Poly h. Qed.

Lemma roots_dvd pts p : uniq pts -> (forall x, x \in pts -> p.[x] = 0) ->
  exists q, p = q * zpoly pts.
Proof.
move=> u h; apply: uniq_roots_prod_XsubC; last by rewrite uniq_rootsE.
by apply/allP => x /h /eqP.
Qed.

Lemma program_complete pts g (A B C : {poly F}) (vals : seq F) :
  (0 < size pts)%N -> uniq pts -> g != 0 -> (forall x, x \in pts -> g * x \notin pts) ->
  (size A <= size pts)%N -> (size B <= size pts)%N -> (size C <= size pts)%N ->
  (forall x, x \in pts -> A.[x] * B.[x] = C.[x]) ->
  (forall i, (i < size pts)%N ->
     nth 0 vals i = A.[g * nth 0 pts i] * B.[g * nth 0 pts i] - C.[g * nth 0 pts i]) ->
  A * B - C = Poly (quotient_from_coset pts g vals) * zpoly pts
  /\ (size (Poly (quotient_from_coset pts g vals)) <= (size pts).-1)%N.
Proof.
move=> m0 u g0 gz sA sB sC hx hv.
have [|Q eQ] := @roots_dvd pts (A * B - C) u.
  by move=> x xp; rewrite !hornerE hx // subrr.
have sQ : (size Q <= (size pts).-1)%N.
  have [->|Q0] := eqVneq Q 0; first by rewrite size_poly0.
  have : size (A * B - C) = (size Q + size pts)%N.
    by rewrite eQ size_Mmonic ?zpoly_monic // size_zpoly addnS.
  have : (size (A * B - C)%R <= (size pts + size pts).-1)%N.
    rewrite (leq_trans (size_add _ _)) // size_opp geq_max.
    rewrite (leq_trans (size_mul_leq _ _)); last first.
      by rewrite -!subn1 leq_sub2r // leq_add.
    rewrite (leq_trans sC) // -subn1 -addnBA // leq_addr //.
  move=> h1 h2; move: h1; rewrite h2 -subn1 -addnBA // addnC leq_add2l subn1 //.
have e : Poly (quotient_from_coset pts g vals) = Q.
  apply: (quotient_coset m0 u g0 gz eQ); first by rewrite (leq_trans sQ) // leq_pred.
  by move=> i li; rewrite hv // !hornerE.
by rewrite e.
Qed.

Lemma program_sound pts (ts : seq F) (A B C H : {poly F}) (d1 d2 d3 : F) :
  (0 < size pts)%N ->
  (size A <= size pts)%N -> (size B <= size pts)%N -> (size C <= size pts)%N -> (size H <= (size pts).+1)%N ->
  uniq ts -> (2 * size pts < size ts)%N ->
  (forall t, t \in ts ->
     (A.[t] + d1 * zeval pts t) * (B.[t] + d2 * zeval pts t) - (C.[t] + d3 * zeval pts t)
     = H.[t] * zeval pts t) ->
  forall x, x \in pts -> A.[x] * B.[x] = C.[x].
Proof.
move=> m0 sA sB sC sH u lts h x xp.
set Z := zpoly pts.
have sZ c : (size (c *: Z) <= (size pts).+1)%N by rewrite (leq_trans (size_scale_leq _ _)) // size_zpoly.
have sW (P : {poly F}) c : (size P <= size pts)%N -> (size (P + c *: Z)%R <= (size pts).+1)%N.
  by move=> hP; rewrite (leq_trans (size_add _ _)) // geq_max sZ (leq_trans hP).
have e : (A + d1 *: Z) * (B + d2 *: Z) - (C + d3 *: Z) = H * Z.
  apply: (poly_ext u).
  - rewrite (leq_trans (size_add _ _)) // geq_max size_opp; apply/andP; split.
      rewrite (leq_trans (size_mul_leq _ _)) // (leq_trans _ lts) //.
      rewrite -subn1 leq_subLR add1n.
      by rewrite (leq_trans (leq_add (sW _ _ sA) (sW _ _ sB))) // addSn addnS mul2n -addnn.
    rewrite (leq_trans (sW _ _ sC)) // (leq_trans _ lts) // ltnS leq_pmull //.
  - rewrite (leq_trans (size_mul_leq _ _)) // size_zpoly addnS /=.
    by rewrite (leq_trans _ lts) // (leq_trans (leq_add sH (leqnn _))) // addSn mul2n addnn.
  move=> t tt; rewrite !hornerE -zevalE; exact: h.
have z0 : Z.[x] = 0 by apply/eqP; rewrite -/(root _ _) root_zpoly.
have := congr1 (fun p => p.[x]) e; rewrite !hornerE z0 !mulr0 !addr0.
by move/eqP; rewrite subr_eq0 => /eqP.
Qed.

(** loops *)
Lemma enum_idx_sum (V : zmodType) (T : Type) (x0 : T) (l : seq T) (f : nat -> T -> V) :
  \sum_(ic <- enum_idx l) f ic.1 ic.2 = \sum_(i < size l) f i (nth x0 l i).
Proof.
rewrite /enum_idx (big_nth (0%N, x0)) size_zip size_iota minnn big_mkord.
by apply: eq_bigr => i _; rewrite nth_zip ?size_iota //= nth_iota.
Qed.

Lemma mem_enum_idx (T : eqType) (l : seq T) (ic : nat * T) : ic \in enum_idx l ->
  (ic.1 < size l)%N /\ ic.2 \in l.
Proof.
case/(nthP (0%N, ic.2)) => i; rewrite /enum_idx size_zip size_iota minnn => li.
by rewrite nth_zip ?size_iota // => <- /=; rewrite nth_iota // mem_nth.
Qed.

Lemma coef_iota (a n : nat) (f : nat -> F) k :
  coef_of [seq (i, f i) | i <- iota a n] k = if (a <= k < a + n)%N then f k else 0.
Proof.
rewrite /coef_of big_map /= big_mkcond; elim: n a => [|n IH] a.
  by rewrite big_nil addn0; case: ltngtP.
rewrite /= big_cons IH addSnnS; case: (ltngtP a k) => //=; rewrite ?add0r // => ->.
by rewrite addr0 addnS ltnS leq_addr.
Qed.

Lemma coef_enum_idx v k : coef_of (enum_idx v) k = nth 0 v k.
Proof.
have -> : enum_idx v = [seq (i, nth 0 v i) | i <- iota 0 (size v)].
  apply: (@eq_from_nth _ (0%N, 0)); rewrite /enum_idx size_zip size_iota minnn ?size_map ?size_iota //.
  by move=> i li; rewrite nth_zip ?size_iota // (nth_map 0%N) ?size_iota // nth_iota.
rewrite coef_iota add0n /=; case: ltnP => // h; by rewrite nth_default.
Qed.

Lemma all_enum_idx v n : (size v <= n)%N -> all (fun u : nat * F => u.1 < n)%N (enum_idx v).
Proof. by move=> h; apply/allP => u /mem_enum_idx [/leq_trans hu _]; apply: hu. Qed.

Lemma denote_flatten (l : seq (seq (nat * F))) w : denote (flatten l) w = \sum_(s <- l) denote s w.
Proof.
by elim: l => [|s l IH]; rewrite ?big_nil ?big_cons /= ?denote_cat ?IH // /denote big_nil.
Qed.

Lemma denote_map_scale (l : seq (nat * F)) c w :
  denote [seq (tm.1, c * tm.2) | tm <- l] w = c * denote l w.
Proof. by rewrite /denote big_map mulr_sumr; apply: eq_bigr => tm _; rewrite -mulrA. Qed.

Lemma coef_flatten (l : seq (seq (nat * F))) k : coef_of (flatten l) k = \sum_(s <- l) coef_of s k.
Proof.
by elim: l => [|s l IH]; rewrite ?big_nil ?big_cons /= ?coef_cat ?IH // coef_nil.
Qed.

(** The final [coefficients_for_H[i] += H_tmp[i]] loop. *)
Lemma add_quotient (H2 q : seq F) m : size H2 = m.+1 -> size q = m ->
  exists H, [/\ run_adds H2 [seq (i, nth 0 q i) | i <- iota 0 m] = Some H, size H = m.+1
    & Poly H = Poly H2 + Poly q].
Proof.
move=> s2 sq; have [|H [e sz h]] := @run_adds_spec _ H2 [seq (i, nth 0 q i) | i <- iota 0 m].
  by apply/allP => u /mapP[i]; rewrite mem_iota add0n s2 => li -> /=; rewrite ltnS ltnW.
exists H; split=> //; first by rewrite sz.
apply/polyP => k; rewrite coefD !coef_Poly h coef_iota add0n /=; congr (_ + _).
by case: ltnP => // hk; rewrite nth_default // sq.
Qed.

Lemma size_quotient_from_coset pts g v : size (quotient_from_coset pts g v) = size pts.
Proof. by rewrite size_multiply_by_coset size_inverse_fft. Qed.

Lemma size_add_poly_z pts c (H : seq F) : size H = (size pts).+1 -> size (add_poly_z pts c H) = (size pts).+1.
Proof. by move=> h; rewrite size_padd size_pscale size_zcoefs h maxnn. Qed.

Lemma Poly_add_poly_z pts c (H : seq F) : Poly (add_poly_z pts c H) = Poly H + c *: zpoly pts.
Proof. by rewrite Poly_padd Poly_pscale Poly_zcoefs. Qed.

Lemma size_inv_poly pts v : (size (Poly (inverse_fft pts v)) <= size pts)%N.
Proof. by rewrite (leq_trans (size_Poly _)) // size_inverse_fft. Qed.

Lemma nth_map_iota (f : nat -> F) m i : (i < m)%N -> nth 0 [seq f i | i <- iota 0 m] i = f i.
Proof. by move=> li; rewrite (nth_map 0%N) ?size_iota // nth_iota. Qed.

Lemma Poly_map_iota (f : nat -> F) m : Poly ([seq f i | i <- iota 0 m] ++ [:: 0]) = \poly_(i < m) f i.
Proof.
apply/polyP => k; rewrite coef_Poly coef_poly nth_cat size_map size_iota.
case: ltnP => [h|h]; first by rewrite (nth_map 0%N) ?size_iota // nth_iota.
by case: (k - m)%N => [|[|j]].
Qed.

Lemma poly_coefs (v : seq F) m : size v = m -> \poly_(i < m) nth 0 v i = Poly v.
Proof. by move=> <-; apply/polyP => k; rewrite coef_poly coef_Poly; case: ltnP => // /(nth_default 0) ->. Qed.

End PP.
