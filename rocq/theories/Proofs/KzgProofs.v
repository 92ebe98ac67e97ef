(** Proofs about KZG commitments. *)
From mathcomp Require Import all_ssreflect all_algebra.
From Verif.Model Require Import Base Domain KnowledgeCommitment OrderedMap Transcript PolysEvaluator Kzg PlonkTable.
From Verif.Spec Require Import GroupSpec.
From Verif.Proofs Require Import NatTac DomainProofs KcProofs PermProofs TableProofs.
Set Implicit Arguments.
Unset Strict Implicit.
Unset Printing Implicit Defensive.
Import GRing.Theory.
Local Open Scope ring_scope.

(** ** Maps and loops *)
Section OMapFacts.
Variable T : Type.
Implicit Types (m : omapT T).
Lemma om_get_set m k x k' : om_get (om_set m k x) k' = if k == k' then Some x else om_get m k'.
Proof.
elim: m => //= -[k1 y] m ih; case: ltngtP => h /=.
- by [].
- rewrite ih; case: (eqVneq k k') => [<-|//]; case: eqP => // ek.
  by rewrite ek ltnn in h.
- by rewrite -h; case: eqP.
Qed.
Lemma om_get_mem m k : isSome (om_get m k) = (k \in om_keys m).
Proof. by elim: m => //= -[k1 y] m ih; rewrite inE eq_sym; case: eqP. Qed.
Lemma om_get_someP m k : k \in om_keys m -> exists x, om_get m k = Some x.
Proof. by rewrite -om_get_mem; case: (om_get m k) => // x _; exists x. Qed.
Lemma om_get_noneP m k : k \notin om_keys m -> om_get m k = None.
Proof. by rewrite -om_get_mem; case: (om_get m k). Qed.
Lemma mem_om_set m k x k' : (k' \in om_keys (om_set m k x)) = (k' == k) || (k' \in om_keys m).
Proof. by rewrite -!om_get_mem om_get_set eq_sym; case: (k' == k). Qed.
Lemma sorted_om_set m k x : sorted ltn (om_keys m) -> sorted ltn (om_keys (om_set m k x)).
Proof.
elim: m => //= -[k1 y] m ih; case: ltngtP => h /= hs.
- by rewrite h hs.
- have hs' : sorted ltn (om_keys m) by apply: path_sorted hs.
  rewrite path_sortedE; last exact: ltn_trans.
  rewrite ih // andbT; apply/allP => k' hk'; move: hk'; rewrite mem_om_set => /orP[/eqP->//|hk'].
  by move: hs; rewrite path_sortedE; [move=> /andP[/allP /(_ _ hk')] | exact: ltn_trans].
- by rewrite h hs.
Qed.
End OMapFacts.

Lemma keys_eq (T T' : Type) (m : omapT T) (m' : omapT T') : sorted ltn (om_keys m) -> sorted ltn (om_keys m') ->
  om_keys m =i om_keys m' -> om_keys m = om_keys m'.
Proof. by move=> h h' e; apply: irr_sorted_eq h h' e; [exact: ltn_trans | exact: ltnn]. Qed.

Lemma omapM_some (A : eqType) (C : Type) (f : A -> option C) (g : A -> C) (s : seq A) :
  {in s, forall x, f x = Some (g x)} -> omapM f s = Some [seq g x | x <- s].
Proof.
elim: s => //= x s ih h; rewrite h ?mem_head //= ih //= => y hy.
by apply: h; rewrite inE hy orbT.
Qed.
Lemma omapM_size (A C : Type) (f : A -> option C) (s : seq A) r : omapM f s = Some r -> size r = size s.
Proof.
elim: s r => [|x s ih] r /=; first by case=> <-.
case: (f x) => //= y; case e : (omapM f s) => [r'|] //= [<-] /=.
by rewrite (ih r').
Qed.
Lemma omapM_nth (A C : Type) (f : A -> option C) (s : seq A) r i x0 y0 : omapM f s = Some r -> (i < size s)%N ->
  f (nth x0 s i) = Some (nth y0 r i).
Proof.
elim: s r i => [|x s ih] r i //=.
case ex : (f x) => [y|] //=; case e : (omapM f s) => [r'|] //= [<-] /=.
by case: i => [|i] //= hi; apply: ih.
Qed.

Section PowerLoop.
Variables (F : fieldType).
Lemma power_loopE (V : zmodType) (gamma : F) (term : F -> nat * nat -> option V) (g : F -> nat * nat -> V) idx :
  {in idx, forall ki c, term c ki = Some (g c ki)} ->
  power_loop gamma term idx = Some (\sum_(j < size idx) g (gamma ^+ j) (nth (0, 0)%N idx j)).
Proof.
move=> h; rewrite /power_loop.
have H a c : {in idx, forall ki c, term c ki = Some (g c ki)} ->
  ofold (fun (st : V * F) ki => omap (fun v => (st.1 + v, st.2 * gamma)) (term st.2 ki)) (a, c) idx =
  Some (a + \sum_(j < size idx) g (c * gamma ^+ j) (nth (0, 0)%N idx j), c * gamma ^+ size idx).
  elim: idx {h} a c => [|ki idx ih] a c h /=; first by rewrite big_ord0 addr0 mulr1.
  rewrite h ?mem_head //= ih; last by move=> k hk; apply: h; rewrite inE hk orbT.
  rewrite big_ord_recl /= expr0 mulr1 addrA; congr (Some (_, _)); last by rewrite exprS mulrA.
  by congr (_ + _); apply: eq_bigr => j _; rewrite exprS mulrA.
rewrite H //= add0r; congr Some; apply: eq_bigr => j _.
by rewrite mul1r.
Qed.
Lemma batch_indicesE (sz : nat -> option nat) (n : nat -> nat) keys : {in keys, forall k, sz k = Some (n k)} ->
  batch_indices sz keys = Some [seq (k, i) | k <- keys, i <- iota 0 (n k)].
Proof.
move=> h; rewrite /batch_indices (omapM_some (g := fun k => [seq (k, i) | i <- iota 0 (n k)])) //.
by move=> k hk; rewrite h.
Qed.
End PowerLoop.

(** ** Commitments as evaluations *)
Section Commit.
Variables (F : fieldType) (V : lmodType F).
Lemma size_powers_of alpha (x : V) n : size (powers_of alpha x n) = n.
Proof. by elim: n x => //= n ih x; rewrite ih. Qed.
Lemma multiexp_powers alpha (x : V) n (s : seq F) : (size s <= n)%N ->
  multiexp (take (size s) (powers_of alpha x n)) s = (Poly s).[alpha] *: x.
Proof.
elim: s n x => [|c s ih] [|n] x //=; rewrite ?horner0 ?scale0r // => h.
by rewrite ih // horner_cons scalerDl -scalerA addrC.
Qed.
Lemma commit_withE alpha (x : V) n (f : {poly F}) : (size f <= n)%N -> commit_with (powers_of alpha x n) f = Some (f.[alpha] *: x).
Proof. by move=> h; rewrite /commit_with size_powers_of h multiexp_powers // polyseqK. Qed.
End Commit.

(** ** Interpolation and vanishing polynomials *)
Section Polys.
Variable F : fieldType.
Implicit Types (S T : seq F) (p : {poly F}).

Lemma get_VE S : get_V S = zpoly S.
Proof.
rewrite /get_V /zpoly; suff H (a : {poly F}) : foldl (fun V x => V * ('X - x%:P)) a S = a * \prod_(x <- S) ('X - x%:P) by rewrite H mul1r.
by elim: S a => [|x S ih] a /=; rewrite ?big_nil ?mulr1 // big_cons ih mulrA.
Qed.
Lemma create_polynomE S : S != [::] -> create_polynom_by_zeros S = Some (zpoly S).
Proof.
case: S => //= x S _; rewrite /zpoly big_cons; congr Some.
by elim: S ('X - x%:P) => [|y S ih] a /=; rewrite ?big_nil ?mulr1 // big_cons ih mulrA.
Qed.

Lemma lagrange_size (pts : seq (F * F)) : (size (lagrange_interpolation pts) <= size pts)%N.
Proof.
rewrite /lagrange_interpolation; apply: (big_ind (fun p : {poly F} => size p <= size pts)%N); rewrite ?size_poly0 //.
  by move=> p q hp hq; apply: leq_trans (size_add _ _) _; rewrite geq_max hp.
move=> k _; apply: leq_trans (size_scale_leq _ _) _.
have n0 : (0 < size pts)%N by case: pts k => //= -[].
apply: leq_trans (_ : _ <= (\sum_(j < size pts | j != k) 1).+1)%N _; last first.
  by rewrite sum1_card cardC1 card_ord prednK.
apply: (big_rec2 (fun (p : {poly F}) n => size p <= n.+1)%N); first by rewrite size_poly1.
move=> j n p _ h; apply: leq_trans (size_mul_leq _ _) _.
have h2 (a : F) (b : F) : (size (a *: ('X - b%:P)) <= 2)%N by apply: leq_trans (size_scale_leq _ _) _; rewrite size_XsubC.
move: (h2 ((nth (0, 0) pts k).1 - (nth (0, 0) pts j).1)^-1 (nth (0, 0) pts j).1).
by move: (size (_ : {poly F})) (size n) h => a b h h3; slia.
Qed.
Lemma lagrange_at (xs ys : seq F) i : uniq xs -> size xs = size ys -> (i < size xs)%N ->
  (lagrange_interpolation (zip xs ys)).[nth 0 xs i] = nth 0 ys i.
Proof.
move=> u hs hi; rewrite /lagrange_interpolation size_zip -hs minnn horner_sum.
rewrite (bigD1 (Ordinal hi)) //= [X in _ + X]big1 ?addr0.
  rewrite hornerZ nth_zip //= horner_prod big1 ?mulr1 // => j /eqP hj.
  rewrite hornerZ !hornerE nth_zip //= mulVf // subr_eq0 nth_uniq //.
  by apply/eqP => e; apply: hj; apply: val_inj.
move=> k hk; rewrite hornerZ horner_prod (bigD1 (Ordinal hi)) ?(eq_sym _ k) //= [X in _ * (X * _) = _]hornerZ hornerXsubC.
by rewrite !(nth_zip _ _ _ hs) /= subrr mulr0 mul0r mulr0.
Qed.
Definition Upoly p S : {poly F} := lagrange_interpolation (zip S [seq p.[x] | x <- S]).
Lemma Upoly_size p S : (size (Upoly p S) <= size S)%N.
Proof. by apply: leq_trans (lagrange_size _) _; rewrite size_zip geq_minl. Qed.
Lemma Upoly_at p S x : uniq S -> x \in S -> (Upoly p S).[x] = p.[x].
Proof.
move=> u hx; rewrite -[in LHS](nth_index 0 hx) lagrange_at ?size_map ?index_mem //.
by rewrite (nth_map 0) ?index_mem // nth_index.
Qed.
Lemma Upoly_dvd p S : uniq S -> zpoly S %| p - Upoly p S.
Proof.
move=> u; apply: uniq_roots_dvdp; last by rewrite uniq_rootsE.
by apply/allP => x hx; rewrite rootE !hornerE Upoly_at // subrr.
Qed.
Lemma zpoly_neq0 S : zpoly S != 0.
Proof. exact: monic_neq0 (zpoly_monic S). Qed.
Lemma zpoly_diff T S : uniq T -> uniq S -> {subset S <= T} -> zpoly (set_difference T S) * zpoly S = zpoly T.
Proof.
move=> uT uS sub; rewrite /zpoly -big_cat /=; apply: perm_big; apply: uniq_perm => //.
  rewrite cat_uniq filter_uniq //= uS andbT; apply/hasPn => x hx.
  by rewrite -[mem _ x]/(x \in _) mem_filter hx.
move=> x; rewrite mem_cat mem_filter; case: (boolP (x \in S)) => /= [/sub->|]; rewrite ?orbT ?orbF //.
Qed.
Lemma size_quot p S d : (size p <= d)%N -> (size S <= d)%N -> (size ((p - Upoly p S) %/ zpoly S)%R <= d)%N.
Proof.
move=> h1 h2; apply: leq_trans (leq_divp _ _) _; apply: leq_trans (size_add _ _) _.
by rewrite size_opp geq_max h1 (leq_trans (Upoly_size _ _)).
Qed.
End Polys.

(** ** The simple scheme *)
Section Simple.
Variables (F : fieldType) (G1 G2 GT : lmodType F) (e : G1 -> G2 -> GT) (g1 : G1) (g2 : G2).
Hypothesis be : bilinear e.
Lemma e0l y : e 0 y = 0. Proof. by rewrite -(scale0r (0 : G1)) (e_scalel be) scale0r. Qed.
Lemma e0r x : e x 0 = 0. Proof. by rewrite -(scale0r (0 : G2)) (e_scaler be) scale0r. Qed.
Lemma e_suml I (r : seq I) (P : pred I) (f : I -> G1) y : e (\sum_(i <- r | P i) f i) y = \sum_(i <- r | P i) e (f i) y.
Proof. by apply: (big_morph (fun x => e x y)) => [x x'|]; [exact: (e_addl be) | exact: e0l]. Qed.
Lemma eNl x y : e (- x) y = - e x y. Proof. by rewrite -scaleN1r (e_scalel be) scaleN1r. Qed.
Lemma ess a b : e (a *: g1) (b *: g2) = (a * b) *: e g1 g2.
Proof. by rewrite (e_scalel be) (e_scaler be) scalerA. Qed.

Lemma kzg_quot_at (f : {poly F}) z : (f - f.[z]%:P) %% ('X - z%:P) = 0 /\
  (f - f.[z]%:P) %/ ('X - z%:P) * ('X - z%:P) = f - f.[z]%:P.
Proof.
have h : 'X - z%:P %| f - f.[z]%:P by rewrite dvdp_XsubCl rootE !hornerE subrr.
by split; [apply/eqP; exact: h | rewrite divpK].
Qed.
Lemma kzg_proof_evalE d alpha (f : {poly F}) z : (size f <= d)%N ->
  exists2 pi, kzg_proof_eval (kzg_setup g1 g2 d alpha) f z = Some pi &
    exists2 q, pi = q *: g1 & q * (alpha - z) = f.[alpha] - f.[z].
Proof.
move=> h; have [h1 h2] := kzg_quot_at f z; rewrite /kzg_proof_eval h1 eqxx /= commit_withE.
  eexists; [by [] | eexists; first by []].
  by move/(congr1 (fun p : {poly F} => p.[alpha])): h2; rewrite hornerM hornerXsubC => ->; rewrite !hornerE.
apply: leq_trans (leq_divp _ _) _; apply: leq_trans (size_add _ _) _; rewrite size_opp geq_max h /=.
case: (posnP (size f)) => [/eqP|h0]; first by rewrite size_poly_eq0 => /eqP->; rewrite horner0 size_poly0.
exact: leq_trans (size_polyC_leq1 _) (leq_trans h0 h).
Qed.
Lemma kzg_verify_evalE d alpha pi (c : F) z v :
  kzg_verify_eval e g1 g2 (kzg_setup g1 g2 d alpha) pi (KzgPublicKey (c *: g1) z v) =
  (e ((alpha - z) *: pi + (v - c) *: g1) g2 == 0).
Proof.
rewrite /kzg_verify_eval /= -!scalerBl (e_addl be); congr (_ + _ == _).
by rewrite (e_scaler be) (e_scalel be).
Qed.
End Simple.
