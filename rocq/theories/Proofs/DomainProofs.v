(** Facts about coefficient vectors, interpolation and update loops. *)
From mathcomp Require Import all_ssreflect all_algebra.
From Verif.Model Require Import Base LinearCombination ConstraintSystems Domain.
From Verif.Spec Require Import LinearSpec.
From Verif.Proofs Require Import LinearProofs.
Set Implicit Arguments.
Unset Strict Implicit.
Unset Printing Implicit Defensive.
Import GRing.Theory.
Local Open Scope ring_scope.

Section DP.
Variable F : fieldType.
Implicit Types (pts s v : seq F) (c x t : F).

Lemma pevalE s x : peval s x = (Poly s).[x].
Proof. by rewrite horner_Poly; elim: s => //= a s ->; rewrite addrC mulrC. Qed.

Lemma Poly_cons a s : Poly (a :: s) = a%:P + Poly s * 'X.
Proof. by rewrite /= cons_poly_def addrC. Qed.

Lemma Poly_padd s (t : seq F) : Poly (padd s t) = Poly s + Poly t.
Proof.
elim: s t => [|a s IH] [|b t]; rewrite ?add0r ?addr0 //.
rewrite [padd _ _]/= 3!Poly_cons IH polyCD mulrDl.
by rewrite -!addrA; congr (_ + _); rewrite addrCA.
Qed.

Lemma size_padd s (t : seq F) : size (padd s t) = maxn (size s) (size t).
Proof. by elim: s t => [|a s IH] [|b t] //=; rewrite ?maxn0 ?max0n // IH maxnSS. Qed.

Lemma nth_padd s (t : seq F) i : nth 0 (padd s t) i = nth 0 s i + nth 0 t i.
Proof. by elim: s t i => [|a s IH] [|b t] [|i] //=; rewrite ?add0r ?addr0 // nth_nil ?addr0. Qed.

Lemma Poly_pscale c s : Poly (pscale c s) = c *: Poly s.
Proof.
elim: s => [|a s IH]; first by rewrite scaler0.
by rewrite [pscale _ _]/= 2!Poly_cons IH scalerDr polyCM -!mul_polyC mulrA.
Qed.

Lemma size_pscale c s : size (pscale c s) = size s.
Proof. exact: size_map. Qed.

Lemma Poly_pmulXc c s : Poly (pmulXc c s) = ('X - c%:P) * Poly s.
Proof.
rewrite /pmulXc Poly_padd Poly_pscale Poly_cons polyC0 add0r mulrBl.
by rewrite [Poly s * 'X]mulrC scaleNr mul_polyC.
Qed.

Definition zpoly pts : {poly F} := \prod_(p <- pts) ('X - p%:P).

Lemma Poly_zcoefs pts : Poly (zcoefs pts) = zpoly pts.
Proof.
elim: pts => [|a s IH]; rewrite /zpoly ?big_nil ?big_cons.
  by rewrite /zcoefs /= cons_poly_def mul0r add0r.
by rewrite [zcoefs _]/= Poly_pmulXc IH.
Qed.

Lemma zevalE pts t : zeval pts t = (zpoly pts).[t].
Proof.
by elim: pts => [|a s IH]; rewrite /zpoly ?big_nil ?big_cons /= ?hornerC // hornerM !hornerE IH.
Qed.

Lemma size_zcoefs pts : size (zcoefs pts) = (size pts).+1.
Proof. by elim: pts => [|a s IH] //=; rewrite /pmulXc size_padd /= size_pscale IH; apply/maxn_idPl; rewrite leqnSn. Qed.

Lemma size_zpoly pts : size (zpoly pts) = (size pts).+1.
Proof. exact: size_prod_XsubC. Qed.

Lemma zpoly_monic pts : zpoly pts \is monic.
Proof. exact: monic_prod_XsubC. Qed.

Lemma root_zpoly pts t : root (zpoly pts) t = (t \in pts).
Proof. exact: root_prod_XsubC. Qed.

Lemma zeval_eq0 pts t : (zeval pts t == 0) = (t \in pts).
Proof. by rewrite zevalE -root_zpoly. Qed.

Lemma others_mem pts i j : uniq pts -> (i < size pts)%N -> (j < size pts)%N ->
  (nth 0 pts j \in others pts i) = (j != i).
Proof.
move=> u li lj; rewrite /others.
have e : pts = take i pts ++ nth 0 pts i :: drop i.+1 pts by rewrite -drop_nth // cat_take_drop.
have : uniq (take i pts ++ nth 0 pts i :: drop i.+1 pts) by rewrite -e.
rewrite cat_uniq /= negb_or => /and4P[_ /andP[n1 _] n2 _].
apply/idP/idP => [h|ne].
  apply: contraTneq h => ->; rewrite mem_cat negb_or n2 andbT //.
have : nth 0 pts j \in pts by apply: mem_nth.
rewrite {2}e !mem_cat in_cons => /or3P[->|/eqP h|->] //; last by rewrite orbT.
by case/negP: ne; rewrite -(nth_uniq 0 lj li u) h.
Qed.

Lemma lagrange_evalE pts i j : uniq pts -> (i < size pts)%N -> (j < size pts)%N ->
  lagrange_eval pts (nth 0 pts j) i = (i == j)%:R.
Proof.
move=> u li lj; rewrite /lagrange_eval eq_sym; case: eqP => [->|/eqP ne].
  by rewrite divff // zeval_eq0 others_mem // eqxx.
have /eqP -> : zeval (others pts i) (nth 0 pts j) == 0 by rewrite zeval_eq0 others_mem.
by rewrite mul0r.
Qed.

Lemma lagrange_coefs_horner pts i t : (Poly (lagrange_coefs pts i)).[t] = lagrange_eval pts t i.
Proof. by rewrite Poly_pscale hornerZ Poly_zcoefs -zevalE mulrC. Qed.

Lemma size_others pts i : (i < size pts)%N -> size (others pts i) = (size pts).-1.
Proof.
move=> li; rewrite size_cat size_takel 1?ltnW // size_drop.
by rewrite -subn1 addnBA // addnC subnS addnK subn1.
Qed.

Lemma size_lagrange_coefs pts i : (i < size pts)%N -> size (lagrange_coefs pts i) = size pts.
Proof. by move=> li; rewrite size_pscale size_zcoefs size_others // prednK //; case: pts li. Qed.

Lemma Poly_nseq0 n : Poly (nseq n (0 : F)) = 0.
Proof. by elim: n => //= n ->; rewrite cons_poly_def mul0r addr0. Qed.

Lemma Poly_foldr_padd (n : nat) (l : seq (seq F)) :
  Poly (foldr (@padd F) (nseq n 0) l) = \sum_(s <- l) Poly s.
Proof. by elim: l => [|s l IH]; rewrite ?big_nil ?big_cons /= ?Poly_nseq0 // Poly_padd IH. Qed.

Lemma big_iota0 (V : zmodType) n (f : nat -> V) : \sum_(i <- iota 0 n) f i = \sum_(i < n) f i.
Proof. by rewrite -(big_mkord xpredT f) /index_iota subn0. Qed.

Lemma Poly_inverse_fft pts v :
  Poly (inverse_fft pts v) = \sum_(i < size pts) nth 0 v i *: Poly (lagrange_coefs pts i).
Proof.
rewrite /inverse_fft Poly_foldr_padd big_map big_iota0.
by apply: eq_bigr => i _; rewrite Poly_pscale.
Qed.

Lemma size_inverse_fft pts v : size (inverse_fft pts v) = size pts.
Proof.
rewrite /inverse_fft.
have : all (fun s => size s == size pts)
  [seq pscale (nth 0 v i) (lagrange_coefs pts i) | i <- iota 0 (size pts)].
  by apply/allP => s /mapP[i]; rewrite mem_iota add0n => li ->; rewrite size_pscale size_lagrange_coefs.
elim: [seq _ | _ <- _] => /= [|s l IH]; first by rewrite size_nseq.
by case/andP => /eqP hs /IH h; rewrite size_padd hs h maxnn.
Qed.

Lemma inverse_fft_horner pts v t :
  (Poly (inverse_fft pts v)).[t] = \sum_(i < size pts) nth 0 v i * lagrange_eval pts t i.
Proof.
by rewrite Poly_inverse_fft horner_sum; apply: eq_bigr => i _; rewrite hornerZ lagrange_coefs_horner.
Qed.

Lemma inverse_fft_at pts v i : uniq pts -> (i < size pts)%N ->
  (Poly (inverse_fft pts v)).[nth 0 pts i] = nth 0 v i.
Proof.
move=> u li; rewrite inverse_fft_horner (bigD1 (Ordinal li)) //= lagrange_evalE // eqxx mulr1.
rewrite big1 ?addr0 // => j; rewrite -val_eqE /= => ne.
by rewrite lagrange_evalE // (negbTE ne) mulr0.
Qed.

Lemma poly_ext pts (p q : {poly F}) : uniq pts -> (size p <= size pts)%N -> (size q <= size pts)%N ->
  (forall x, x \in pts -> p.[x] = q.[x]) -> p = q.
Proof.
move=> u sp sq h; apply/eqP; rewrite -subr_eq0; apply/eqP.
apply: (@roots_geq_poly_eq0 _ _ pts) => //.
  by apply/allP => x xs; rewrite /root hornerD hornerN h // subrr.
by rewrite (leq_trans (size_add _ _)) // size_opp geq_max sp sq.
Qed.

Lemma inverse_fft_unique pts v (p : {poly F}) : uniq pts -> (size p <= size pts)%N ->
  (forall i, (i < size pts)%N -> p.[nth 0 pts i] = nth 0 v i) -> Poly (inverse_fft pts v) = p.
Proof.
move=> u sp h; apply: (poly_ext u) => //; first by rewrite (leq_trans (size_Poly _)) // size_inverse_fft.
by move=> x /(nthP 0)[i li <-]; rewrite inverse_fft_at // h.
Qed.

Lemma size_multiply_by_coset_from u s g : size (multiply_by_coset_from u s g) = size s.
Proof. by elim: s u => //= a s IH u; rewrite IH. Qed.
Lemma size_multiply_by_coset s g : size (multiply_by_coset s g) = size s.
Proof. exact: size_multiply_by_coset_from. Qed.

Lemma multiply_by_coset_fromE u s g :
  Poly (multiply_by_coset_from u s g) = u *: (Poly s \Po (g *: 'X)).
Proof.
elim: s u => [|a s IH] u; first by rewrite /= comp_poly0 scaler0.
rewrite [multiply_by_coset_from _ _ _]/= 2!Poly_cons IH.
rewrite comp_polyD comp_polyC comp_polyM comp_polyX scalerDr -!scalerA.
rewrite -[u *: a%:P]mul_polyC -polyCM [u * a]mulrC; congr (_ + _).
by rewrite -scalerAl; congr (_ *: _); rewrite -scalerAl scalerAr.
Qed.

Lemma Poly_multiply_by_coset s g : Poly (multiply_by_coset s g) = Poly s \Po (g *: 'X).
Proof. by rewrite /multiply_by_coset multiply_by_coset_fromE scale1r. Qed.

Lemma multiply_by_coset_horner s g x : (Poly (multiply_by_coset s g)).[x] = (Poly s).[g * x].
Proof. by rewrite Poly_multiply_by_coset horner_comp hornerZ hornerX. Qed.

Lemma nth_fft_coset pts s g i : (i < size pts)%N ->
  nth 0 (fft pts (multiply_by_coset s g)) i = (Poly s).[g * nth 0 pts i].
Proof. by move=> li; rewrite (nth_map 0) // pevalE multiply_by_coset_horner. Qed.

(** ** update loops *)

Lemma size_vset (T : Type) (s : seq T) i (x : T) (s' : seq T) : vset s i x = Some s' -> size s' = size s.
Proof.
rewrite /vset; case: ifP => // li [<-].
by rewrite size_cat /= size_takel ?(ltnW li) // size_drop -addSnnS subnKC.
Qed.

Lemma nth_vset (T : Type) (x0 : T) (s : seq T) i (x : T) (s' : seq T) k : vset s i x = Some s' ->
  nth x0 s' k = if k == i then x else nth x0 s k.
Proof.
rewrite /vset; case: ifP => // li [<-].
rewrite nth_cat size_takel ?(ltnW li) //.
case: (ltngtP k i) => [h|h|->]; first by rewrite nth_take.
  case E : (k - i)%N (subn_gt0 i k) => [|j]; first by rewrite h.
  by move=> _ /=; rewrite nth_drop addSnnS -E subnKC // ltnW.
by rewrite subnn.
Qed.

Lemma vset_some (T : Type) (s : seq T) i (x : T) : (i < size s)%N -> exists s' : seq T, vset s i x = Some s'.
Proof. by rewrite /vset => ->; eexists. Qed.

Lemma run_adds_spec v us : all (fun u : nat * F => u.1 < size v)%N us ->
  exists v', [/\ run_adds v us = Some v', size v' = size v
    & forall k, nth 0 v' k = nth 0 v k + coef_of us k].
Proof.
rewrite /run_adds; elim: us v => [|u us IH] v /= => [_|/andP[lu h]].
  by exists v; split=> // k; rewrite coef_nil addr0.
rewrite (vgetE 0) lu /=.
have [v1 e1] := vset_some (nth 0 v u.1 + u.2) lu; rewrite e1 /=.
have [|v' [e2 sz h']] := IH v1; first by rewrite (size_vset e1).
exists v'; split=> //; first by rewrite sz (size_vset e1).
move=> k; rewrite h' (nth_vset _ _ e1) coef_cons [u.1 == k]eq_sym.
by case: eqP => [->|_]; rewrite ?add0r ?addrA.
Qed.

Lemma run_adds_zero n us : all (fun u : nat * F => u.1 < n)%N us ->
  exists v', [/\ run_adds (nseq n 0) us = Some v', size v' = n & forall k, nth 0 v' k = coef_of us k].
Proof.
move=> h; have [|v' [e sz h']] := @run_adds_spec (nseq n 0) us; first by rewrite size_nseq.
by exists v'; split => //; [rewrite sz size_nseq | move=> k; rewrite h' nth_nseq if_same add0r].
Qed.

Lemma run_sets_adds v us : uniq [seq u.1 | u <- us] -> all (fun u : nat * F => u.1 < size v)%N us ->
  (forall k, k \in [seq u.1 | u <- us] -> nth 0 v k = 0) -> run_sets v us = run_adds v us.
Proof.
rewrite /run_sets /run_adds; elim: us v => [|u us IH] v //= /andP[nu uu] /andP[lu h] z.
rewrite (vgetE 0) lu /= z ?mem_head // add0r.
have [v1 e1] := vset_some u.2 lu; rewrite e1 /= IH //; first by rewrite (size_vset e1).
move=> k hk; rewrite (nth_vset _ _ e1); case: eqP => [ek|_]; first by rewrite -ek hk in nu.
by rewrite z // in_cons hk orbT.
Qed.

Lemma run_adds_cat v us us' : run_adds v (us ++ us') = obnd (run_adds v us) (fun v' => run_adds v' us').
Proof.
rewrite /run_adds; elim: us v => //= u us IH v.
by case: (obnd (vget v u.1) _) => //=.
Qed.

Lemma inner_productE (a b : seq F) n : size a = n -> size b = n ->
  inner_product a b = \sum_(i < n) nth 0 a i * nth 0 b i.
Proof.
elim: a b n => [|x a IH] [|y b] [|n] //=; first by rewrite big_ord0.
by move=> [sa] [sb]; rewrite big_ord_recl (IH b n).
Qed.

Lemma powers_fromE ti t n i : (i < n)%N -> nth 0 (powers_from ti t n) i = ti * t ^+ i.
Proof.
elim: n ti i => [|n IH] ti [|i] //=; first by rewrite expr0 mulr1.
by rewrite ltnS => /IH ->; rewrite exprS mulrA.
Qed.
Lemma size_powers_from ti t n : size (powers_from ti t n) = n.
Proof. by elim: n ti => //= n IH ti; rewrite IH. Qed.
Lemma size_powers t n : size (powers t n) = n.
Proof. exact: size_powers_from. Qed.
Lemma nth_powers t n i : (i < n)%N -> nth 0 (powers t n) i = t ^+ i.
Proof. by move=> li; rewrite powers_fromE // mul1r. Qed.

Lemma inner_powers t n s : size s = n -> inner_product (powers t n) s = (Poly s).[t].
Proof.
move=> sz; rewrite (inner_productE (size_powers t n) sz).
rewrite (@horner_coef_wide _ n) -?sz ?size_Poly //.
by apply: eq_bigr => i _; rewrite nth_powers ?ltn_ord // coef_Poly mulrC.
Qed.

(** The value computed by the [ans_X] expressions of the three [is_satisfied]. *)
Lemma ans_denote (w Xt : seq F) us n : size Xt = n.+1 -> size w = n ->
  (forall k, nth 0 Xt k = coef_of us k) -> vars_in us n ->
  head 0 Xt + inner_product (behead Xt) w = denote us w.
Proof.
move=> sX sw h hv; rewrite (denote_coef _ hv) big_ord_recl /= {1}/var_value /= mulr1 -nth0 h; congr (_ + _).
rewrite (@inner_productE _ _ n) ?size_behead ?sX //.
by apply: eq_bigr => i _; rewrite nth_behead h.
Qed.

Lemma nth_lagrange pts t i : (i < size pts)%N ->
  nth 0 (evaluate_all_lagrange_polynomials pts t) i = lagrange_eval pts t i.
Proof. by move=> li; rewrite (nth_map 0%N) ?size_iota // nth_iota. Qed.

Lemma oseq_some (T : Type) (f : T -> option F) (h : T -> F) (l : seq T) :
  (forall i (x0 : T), (i < size l)%N -> f (nth x0 l i) = Some (h (nth x0 l i))) ->
  oseq [seq f x | x <- l] = Some [seq h x | x <- l].
Proof.
elim: l => //= a l IH H; rewrite (H 0%N a) //= IH //.
by move=> i x0 li; apply: (H i.+1 x0).
Qed.

(** Coset division recovers the quotient. *)
Lemma quotient_coset pts g (vals : seq F) (P Q : {poly F}) :
  (0 < size pts)%N -> uniq pts -> g != 0 -> (forall x, x \in pts -> g * x \notin pts) ->
  P = Q * zpoly pts -> (size Q <= size pts)%N ->
  (forall i, (i < size pts)%N -> nth 0 vals i = P.[g * nth 0 pts i]) ->
  Poly (multiply_by_coset (inverse_fft pts (divide_by_z_on_coset pts g vals)) g^-1) = Q.
Proof.
move=> m0 u g0 gz ePQ sQ hv.
rewrite Poly_multiply_by_coset (@inverse_fft_unique _ _ (Q \Po (g *: 'X))) //.
- rewrite -comp_polyA comp_polyZ comp_polyX scalerA mulfV // scale1r comp_polyXr //.
- rewrite (leq_trans (size_comp_poly_leq _ _)) //.
  rewrite size_scale // size_polyX muln1.
  by case: (size Q) sQ.
move=> i li; rewrite /divide_by_z_on_coset (nth_map 0%N) ?size_iota // nth_iota // add0n hv //.
rewrite ePQ hornerM horner_comp hornerZ hornerX zevalE mulfK //.
by rewrite -zevalE zeval_eq0 gz // mem_nth.
Qed.

End DP.
