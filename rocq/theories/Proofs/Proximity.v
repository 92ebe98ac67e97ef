(** Proximity: combinations with a challenge rarely hide errors. *)
From mathcomp Require Import all_ssreflect all_algebra.
From Verif.Model Require Import Base OrderedMap Domain Fri.
From Verif.Spec Require Import FriSpec ProximitySpec.
From Verif.Proofs Require Import NatTac FieldTac PermProofs DomainProofs FriFold.
Set Implicit Arguments.
Unset Strict Implicit.
Unset Printing Implicit Defensive.
Import GRing.Theory.
Local Open Scope ring_scope.

Section Count.
Lemma pigeons (A : eqType) (B : eqType) (l : nat) (R : A -> B -> bool) (S : seq B) : forall (s : seq A), 
  (forall a, a \in s -> exists2 x, x \in S & R a x) -> (forall x, x \in S -> size [seq a <- s | R a x] <= l)%N ->
  (size s <= l * size S)%N.
Proof.
elim: S => [|x S ih] s h1 h2 /=.
  by case: s h1 {h2} => // a s h1; have [|x] := h1 a; rewrite ?mem_head.
rewrite mulnS -(count_predC (R^~ x)) -!size_filter leq_add //; first by apply: h2; rewrite mem_head.
apply: ih => [a|y hy].
  rewrite mem_filter => /andP[/= na ha]; have [y] := h1 _ ha; rewrite inE => /orP[/eqP ->|hy] hr; first by rewrite hr in na.
  by exists y.
apply: leq_trans (h2 y _); last by rewrite inE hy orbT.
by rewrite !size_filter count_filter; apply: sub_count => a /= /andP[].
Qed.
Lemma count_capC (A : Type) (p q : pred A) s : (count (fun a => ~~ (p a && q a)) s <= count (predC p) s + count (predC q) s)%N.
Proof.
rewrite -count_predUI; apply: leq_trans (leq_addr _ _); apply: sub_count => a /=; by rewrite negb_and.
Qed.
Lemma sub_in_count (A : eqType) (p q : pred A) s : (forall a, a \in s -> p a -> q a) -> (count p s <= count q s)%N.
Proof.
elim: s => //= a s ih h; apply: leq_add; last by apply: ih => c hc; apply: h; rewrite inE hc orbT.
by case E: (p a) => //; rewrite h // mem_head.
Qed.
End Count.

Section Curve.
Variable F : fieldType.
Implicit Types (p q : {poly F}) (a : F).
Lemma poly_eq_on b p q (s : seq F) : uniq s -> (size p <= b)%N -> (size q <= b)%N -> (b <= size s)%N ->
  (forall x, x \in s -> p.[x] = q.[x]) -> p = q.
Proof.
move=> us hp hq hs h; apply/eqP; rewrite -subr_eq0; apply/negPn/negP => n0.
have hr : all (root (p - q)) s by apply/allP => x hx; rewrite rootE hornerD hornerN h // subrr.
have := max_poly_roots n0 hr us; rewrite ltnNge => /negP; apply; apply: leq_trans hs.
by apply: leq_trans (size_add _ _) _; rewrite size_opp geq_max hp.
Qed.

(** The word at the index [x] is the value of [P x] at the challenge. *)
Variables (D : seq F) (P : nat -> {poly F}) (l b e : nat).
Hypothesis uD : uniq D.
Hypothesis sP : forall x, (x < size D)%N -> (size (P x) <= l.+1)%N.
Notation y x := (nth 0 D x).
Definition agrees a q := [seq x <- iota 0 (size D) | (P x).[a] == q.[y x]].
Definition explained (T : seq nat) : Prop := exists c : nat -> {poly F}, (forall i, size (c i) <= b)%N /\
  forall x, x \in T -> P x = \sum_(i < l.+1) (c i).[y x] *: 'X^i.
Definition curve_bad a : Prop := exists q, [/\ (size q <= b)%N, (size D <= size (agrees a q) + e)%N & ~ explained (agrees a q)].
Definition curve_bad' a (c : nat -> {poly F}) : Prop := exists q, [/\ (size q <= b)%N, (size D <= size (agrees a q) + e)%N &
  exists2 x, x \in agrees a q & P x <> \sum_(i < l.+1) (c i).[y x] *: 'X^i].

Section Base.
(** l + 1 distinct challenges with polynomials *)
Variables (as_ : seq F) (qs : nat -> {poly F}).
Hypothesis sas : size as_ = l.+1.
Hypothesis uas : uniq as_.
Hypothesis qb : forall k, (k < l.+1)%N -> (size (qs k) <= b)%N.
Hypothesis qe : forall k, (k < l.+1)%N -> (size D <= size (agrees (nth 0%R as_ k) (qs k)) + e)%N.
Notation L k := (Poly (lagrange_coefs as_ k)).
Definition cs i : {poly F} := \sum_(k < l.+1) (L k)`_i *: qs k.
Definition Q x : {poly F} := \sum_(i < l.+1) (cs i).[y x] *: 'X^i.
Lemma size_cs i : (size (cs i) <= b)%N.
Proof.
rewrite /cs; apply: leq_trans (size_sum _ _ _) _; apply/bigmax_leqP => k _.
by apply: leq_trans (size_scale_leq _ _) (qb _).
Qed.
Lemma size_L k : (k < l.+1)%N -> (size (L k) <= l.+1)%N.
Proof. by move=> hk; apply: leq_trans (size_Poly _) _; rewrite size_lagrange_coefs sas. Qed.
Lemma L_at k j : (k < l.+1)%N -> (j < l.+1)%N -> (L k).[nth 0%R as_ j] = (k == j)%:R.
Proof. by move=> hk hj; rewrite lagrange_coefs_horner lagrange_evalE ?sas. Qed.
Lemma size_Q x : (size (Q x) <= l.+1)%N.
Proof.
rewrite /Q; apply: leq_trans (size_sum _ _ _) _; apply/bigmax_leqP => i _.
by apply: leq_trans (size_scale_leq _ _) _; rewrite size_polyXn.
Qed.
Lemma QE x : Q x = \sum_(k < l.+1) (qs k).[y x] *: L k.
Proof.
have hL : forall k : 'I_l.+1, L k = \sum_(i < l.+1) (L k)`_i *: 'X^i.
  move=> k; apply/polyP => i; rewrite coef_sum; case: (ltnP i l.+1) => hi.
    rewrite (bigD1 (Ordinal hi)) //= coefZ coefXn eqxx mulr1 big1 ?addr0 // => j nj.
    by rewrite coefZ coefXn -val_eqE /= in nj *; rewrite eq_sym (negPf nj) mulr0.
  rewrite big1 => [|j _]; last by rewrite coefZ coefXn gtn_eqF ?mulr0 // (leq_trans (ltn_ord j)).
  by rewrite nth_default // (leq_trans (size_L _) hi).
under [RHS]eq_bigr do rewrite [in X in _ *: X]hL scaler_sumr.
rewrite exchange_big /Q; apply: eq_bigr => i _ /=; rewrite /cs horner_sum scaler_suml.
by apply: eq_bigr => k _; rewrite hornerZ scalerA mulrC.
Qed.
(** Combination with any challenge *)
Definition qat a : {poly F} := \sum_(k < l.+1) (L k).[a] *: qs k.
Lemma size_qat a : (size (qat a) <= b)%N.
Proof.
rewrite /qat; apply: leq_trans (size_sum _ _ _) _; apply/bigmax_leqP => k _.
by apply: leq_trans (size_scale_leq _ _) (qb _).
Qed.
Lemma qat_at a x : (qat a).[y x] = (Q x).[a].
Proof. by rewrite QE /qat !horner_sum; apply: eq_bigr => k _; rewrite !hornerZ mulrC. Qed.
Definition wrong := [seq x <- iota 0 (size D) | P x != Q x].
Lemma size_agrees a q : size (agrees a q) = count (fun x => (P x).[a] == q.[y x]) (iota 0 (size D)).
Proof. by rewrite size_filter. Qed.
Lemma co_agrees a q : (size D <= size (agrees a q) + e)%N = (count (predC (fun x => (P x).[a] == q.[y x])) (iota 0 (size D)) <= e)%N.
Proof.
rewrite size_agrees -{1}(size_iota 0 (size D)) -(count_predC (fun x => (P x).[a] == q.[y x])) leq_add2l //.
Qed.
Lemma all_agree x : (x < size D)%N -> (forall k, (k < l.+1)%N -> (P x).[nth 0%R as_ k] = (qs k).[y x]) -> P x = Q x.
Proof.
move=> hx h; apply: (@poly_eq_on l.+1 _ _ as_) => //; [exact: sP|exact: size_Q|by rewrite sas|].
move=> a /(nthP 0)[j]; rewrite sas => hj <-; rewrite h // QE horner_sum (bigD1 (Ordinal hj)) //= hornerZ L_at // eqxx mulr1 big1 ?addr0 //.
by move=> k nk; rewrite hornerZ L_at // -val_eqE /= in nk *; rewrite (negPf nk) mulr0.
Qed.
Lemma size_wrong : (size wrong <= l.+1 * e)%N.
Proof.
rewrite size_filter.
have : forall n, (n <= l.+1)%N -> (count (fun x => ~~ all (fun k => (P x).[nth 0%R as_ k] == (qs k).[y x]) (iota 0 n)) (iota 0 (size D)) <= n * e)%N.
  elim=> [|n ih] hn; first by rewrite /= count_pred0.
  rewrite (eq_count (a2 := fun x => ~~ ((P x).[nth 0%R as_ n] == (qs n).[y x]) || ~~ all (fun k => (P x).[nth 0%R as_ k] == (qs k).[y x]) (iota 0 n))); last first.
    by move=> x; rewrite -addn1 iotaD all_cat /= add0n andbT negb_and orbC.
  rewrite mulSn; apply: leq_trans (leq_add _ (ih (ltnW hn))); last first.
    move: (qe hn); rewrite co_agrees => h; exact: h.
  rewrite -count_predUI; exact: leq_addr.
move=> h0; apply: leq_trans (h0 _ (leqnn _)); apply: sub_in_count => x; rewrite mem_iota add0n => /andP[_ hx]; apply: contra => /allP h.
by apply/eqP/all_agree => // k hk; apply/eqP/h; rewrite mem_iota.
Qed.
Lemma bad_few (bs : seq F) : (l.+2 * e + b <= size D)%N -> uniq bs -> (forall a, a \in bs -> curve_bad' a cs) -> (size bs <= l * (l.+1 * e))%N.
Proof.
move=> hD ub hb; apply: leq_trans (_ : (l * size wrong <= _)%N); last by rewrite leq_mul2l size_wrong orbT.
apply: (@pigeons _ _ l (fun a x => (P x).[a] == (Q x).[a])).
  move=> a /hb[q [hq hqe [x hx hne]]].
  have eq_ : q = qat a.
    pose s := [seq y x | x <- iota 0 (size D) & ((P x).[a] == q.[y x]) && (P x == Q x)].
    apply: (@poly_eq_on b _ _ s) => //; last first.
    - move=> z /mapP[x']; rewrite mem_filter => /andP[/andP[/eqP h1 /eqP h2] _] ->.
      by rewrite -h1 qat_at h2.
    - rewrite size_map size_filter; rewrite co_agrees in hqe.
      have := size_wrong; rewrite size_filter => hw.
      have := count_capC (fun x => (P x).[a] == q.[y x]) (fun x => P x == Q x) (iota 0 (size D)) => hc.
      have hT := count_predC (fun x => ((P x).[a] == q.[y x]) && (P x == Q x)) (iota 0 (size D)).
      rewrite size_iota in hT.
      move: hw hc hT hqe; set c1 := count _ _; set c2 := count _ _; set c3 := count _ _; set c4 := count _ _.
      rewrite -/c4 -/c3 => h1 h2 h3 h4; have {}h2 : (c2 <= e + l.+1 * e)%N by apply: leq_trans h2 _; apply: leq_add.
      have h5 : (b + l.+2 * e <= c4 + c2)%N.
        by rewrite addnC h3.
      by rewrite -(leq_add2r c2); apply: leq_trans h5; rewrite leq_add2l mulSn.
    - exact: size_qat.
    - rewrite map_inj_in_uniq ?filter_uniq ?iota_uniq // => i j.
      rewrite !mem_filter !mem_iota => /andP[_ hi] /andP[_ hj] he; apply/eqP; by rewrite -(nth_uniq 0 hi hj uD) he.
  move: hx; rewrite mem_filter mem_iota => /andP[/eqP h1 h2].
  exists x; last by rewrite h1 eq_ qat_at.
  by rewrite mem_filter mem_iota h2 andbT; apply/eqP.
move=> x; rewrite mem_filter mem_iota => /andP[hne hx].
have n0 : P x - Q x != 0 by rewrite subr_eq0.
have hr : all (root (P x - Q x)) [seq a <- bs | (P x).[a] == (Q x).[a]].
  by apply/allP => a; rewrite mem_filter => /andP[/eqP h _]; rewrite rootE hornerD hornerN h subrr.
rewrite -ltnS; apply: leq_trans (max_poly_roots n0 hr (filter_uniq _ ub)) _.
by apply: leq_trans (size_add _ _) _; rewrite size_opp geq_max sP // size_Q.
Qed.
End Base.
End Curve.

Section Few.
Variable F : fieldType.
Lemma finite_choice (A : Type) (a0 : A) (R : nat -> A -> Prop) n : (forall k, (k < n)%N -> exists q, R k q) ->
  exists qs : nat -> A, forall k, (k < n)%N -> R k (qs k).
Proof.
elim: n => [|n ih] h; first by exists (fun _ => a0).
have [qs hq] := ih (fun k hk => h k (ltnW hk)); have [q hn] := h n (ltnSn n).
exists (fun k => if k == n then q else qs k) => k; rewrite ltnS leq_eqVlt; case: eqP => [-> //|_] /=; exact: hq.
Qed.
Lemma curve_few (D : seq F) (P : nat -> {poly F}) l b e (bs : seq F) : uniq D ->
  (forall x, (x < size D)%N -> (size (P x) <= l.+1)%N) -> (l.+2 * e + b <= size D)%N -> uniq bs ->
  (forall a, a \in bs -> exists q : {poly F}, [/\ (size q <= b)%N, (size D <= size (agrees D P a q) + e)%N &
    forall c : nat -> {poly F}, (forall i, size (c i) <= b)%N ->
      exists2 x, x \in agrees D P a q & P x <> \sum_(i < l.+1) (c i).[nth 0 D x] *: 'X^i]) ->
  (size bs <= l + l * (l.+1 * e))%N.
Proof.
move=> uD sP hD ub h; case: (leqP (size bs) l) => hs; first by rewrite (leq_trans hs) ?leq_addr.
have [qs hq] : exists qs : nat -> {poly F}, forall k, (k < l.+1)%N ->
    (size (qs k) <= b)%N /\ (size D <= size (agrees D P (nth 0%R (take l.+1 bs) k) (qs k)) + e)%N.
  apply: (@finite_choice _ (0 : {poly F}) (fun k q => (size q <= b)%N /\ (size D <= size (agrees D P (nth 0%R (take l.+1 bs) k) q) + e)%N)) => k hk; have [|q [h1 h2 _]] := h (nth 0 (take l.+1 bs) k).
    by rewrite nth_take // mem_nth // (leq_trans hk).
  by exists q.
apply: leq_trans (leq_addl _ _).
apply: (@bad_few _ D P l b e uD sP (take l.+1 bs) qs) => //.
- by rewrite size_takel.
- by rewrite take_uniq.
- by move=> k /hq[].
- by move=> k /hq[].
move=> a /h[q [h1 h2 h3]]; exists q; split=> //; apply: h3 => i; apply: size_cs => k /hq[] //.
Qed.
End Few.

Section FoldFew.
Variable F : fieldType.
Add Field Ff_prox : (@ffield_theory F).
Variable unity_root : nat -> F.
Variable K : nat.
Hypothesis roots : roots_ok unity_root K.
Hypothesis two : (2%:R : F) != 0.
Notation dom j := (make_domain unity_root (2 ^ j)).
Notation ur j := (unity_root (2 ^ j)).
Definition interleave (c0 c1 : {poly F}) : {poly F} := (c0 \Po 'X^2) + 'X * (c1 \Po 'X^2).
Lemma size_interleave b (c0 c1 : {poly F}) : (size c0 <= b)%N -> (size c1 <= b)%N ->
  (size (interleave c0 c1) <= 2 * b)%N.
Proof.
move=> h0 h1; have hc : forall c : {poly F}, (size c <= b)%N -> (0 < b)%N -> (size (c \Po 'X^2) <= (2 * b).-1)%N.
  move=> c hc hb; apply: leq_trans (size_comp_poly_leq _ _) _; rewrite size_polyXn /=.
  case: (b) hb hc => // b' _ hc; rewrite mul2n doubleS -muln2 /= ltnS leq_mul2r /=.
  by case: (size c) hc.
case: (posnP b) => [b0|hb].
  have z : forall c : {poly F}, (size c <= b)%N -> c = 0 by move=> c h; apply/eqP; rewrite -size_poly_eq0 -leqn0 -b0.
  have -> : interleave c0 c1 = 0 by rewrite (z _ h0) (z _ h1) /interleave -polyC0 !comp_polyC polyC0 mulr0 addr0.
  by rewrite size_poly0.
apply: leq_trans (size_add _ _) _; rewrite geq_max; apply/andP; split.
  by apply: leq_trans (hc _ h0 hb) _; apply: leq_pred.
case: (eqVneq (c1 \Po 'X^2) 0) => [->|n0]; first by rewrite mulr0 size_poly0.
rewrite mulrC size_mulX //; apply: leq_trans (_ : ((2 * b).-1).+1 <= _)%N; first by rewrite ltnS hc.
by rewrite prednK // muln_gt0.
Qed.
Lemma horner_interleave (c0 c1 : {poly F}) x : (interleave c0 c1).[x] = c0.[x ^+ 2] + x * c1.[x ^+ 2].
Proof. by rewrite /interleave hornerD hornerM hornerX !horner_comp hornerXn. Qed.

Definition evenv (j : nat) (v : seq F) i : F := (nth 0 v i + nth 0 v (i + 2 ^ j)%N) / 2%:R.
Definition oddv (j : nat) (v : seq F) i : F := (nth 0 v i - nth 0 v (i + 2 ^ j)%N) / (2%:R * ur j.+1 ^+ i).
Definition foldP (j : nat) (v : seq F) i : {poly F} := (evenv j v i)%:P + oddv j v i *: 'X.
Lemma foldP_at j alpha v i : (j < K)%N -> (i < 2 ^ j)%N -> nth 0 (folded unity_root j alpha v) i = (foldP j v i).[alpha].
Proof.
move=> hj hi; rewrite /folded (nth_map 0%N) ?size_iota // nth_iota // add0n /foldP hornerD hornerC hornerZ hornerX /evenv /oddv.
have w0 : ur j.+1 ^+ i != 0 by rewrite expf_neq0 // (ur_neq0 roots).
move: (ur j.+1 ^+ i) w0 (nth 0 v i) (nth 0 v (i + 2 ^ j)) => w w0 a c.
clear -two w0; ffield F.
Qed.
Lemma recover0 (w a c : F) : w != 0 -> (a + c) / 2%:R + w * ((a - c) / (2%:R * w)) = a.
Proof. move=> w0; clear -two w0; ffield F. Qed.
Lemma recover1 (w a c : F) : w != 0 -> (a + c) / 2%:R - w * ((a - c) / (2%:R * w)) = c.
Proof. move=> w0; clear -two w0; ffield F. Qed.
Lemma fold_recover j v i : (j < K)%N -> nth 0 v i = evenv j v i + ur j.+1 ^+ i * oddv j v i :> F /\
  nth 0 v (i + 2 ^ j) = evenv j v i - ur j.+1 ^+ i * oddv j v i :> F.
Proof.
move=> hj; rewrite /evenv /oddv; have w0 : ur j.+1 ^+ i != 0 by rewrite expf_neq0 // (ur_neq0 roots).
by rewrite recover0 // recover1.
Qed.
Lemma hides_few j b e v (alphas : seq F) : (j < K)%N -> (3 * e + b <= 2 ^ j)%N -> uniq alphas ->
  (forall alpha, alpha \in alphas -> hides_errors unity_root j b e v alpha) -> (size alphas <= (2 * e).+1)%N.
Proof.
move=> hj hD ua h; have := @curve_few F (dom j) (foldP j v) 1 b e alphas; rewrite mul1n add1n; apply=> //.
- by apply: (uniq_dom roots); apply: ltnW.
- move=> x _; apply: leq_trans (size_add _ _) _; rewrite geq_max (leq_trans (size_polyC_leq1 _)) //=.
  by apply: leq_trans (size_scale_leq _ _) _; rewrite size_polyX.
- by rewrite size_dom.
move=> a /h[q [h1 h2 h3]].
have eA : agreement (dom j) (folded unity_root j a v) q = agrees (dom j) (foldP j v) a q.
  rewrite /agreement /agrees; apply: eq_in_filter => i; rewrite mem_iota add0n size_dom => /= hi; by rewrite foldP_at.
exists q; split=> //; first by rewrite size_dom -eA.
move=> c hc; have [i hi hne] := h3 _ (size_interleave (hc 0%N) (hc 1%N)); exists i; first by rewrite -eA.
move=> he; apply: hne; have hi2 : (i < 2 ^ j)%N by move: hi; rewrite mem_filter mem_iota size_dom => /andP[_].
have hi3 : (i < 2 ^ j.+1)%N by rewrite expnS mul2n -addnn (leq_trans hi2) ?leq_addr.
have hi4 : (i + 2 ^ j < 2 ^ j.+1)%N by rewrite expnS mul2n -addnn ltn_add2r.
have [e0 e1] : evenv j v i = (c 0%N).[ur j ^+ i] /\ oddv j v i = (c 1%N).[ur j ^+ i].
  move: he; rewrite !big_ord_recl big_ord0 /bump /= addr0 expr0 expr1 nth_dom // => he.
  have := congr1 (fun p : {poly F} => p`_0) he; have := congr1 (fun p : {poly F} => p`_1) he.
  by rewrite /foldP !alg_polyC !coefD !coefZ !coefC !coefX /= !mulr0 !mulr1 !addr0 !add0r.
rewrite !horner_interleave !nth_dom // (ur_opp roots) // sqrrN.
have -> : (ur j.+1 ^+ i) ^+ 2 = ur j ^+ i by rewrite (ur_sq roots hj) -!exprM mulnC.
by have [-> ->] := fold_recover v i hj; rewrite e0 e1 mulNr.
Qed.
End FoldFew.
