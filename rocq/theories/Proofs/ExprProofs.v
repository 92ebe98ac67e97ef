(** Proofs about expressions. *)
From Coq Require Import NArith Lia.
From mathcomp Require Import all_ssreflect all_algebra.
From Verif.Model Require Import Base HashMap Expression PlonkVariable.
From Verif.Spec Require Import ExprSpec.
From Verif.Proofs Require Import MapProofs.
Set Implicit Arguments.
Unset Strict Implicit.
Unset Printing Implicit Defensive.
Import GRing.Theory.
Local Open Scope ring_scope.

(** ** Equality of terms *)
Section TermEq.
Variables (V : eqType) (R : comRingType).
Implicit Types (t u : eterm V R) (m : seq (V * int)).
Notation cfind := (hm_find (@eq_op V)).
Notation cset := (hm_set (@eq_op V)).

Lemma cfind_set m k x k' : cfind (cset m k x) k' = if k == k' then Some x else cfind m k'.
Proof. apply: hm_find_set; [exact: eq_sym | exact: eq_op_trans]. Qed.
Lemma cset_keys m k x : [seq e.1 | e <- cset m k x] = if k \in [seq e.1 | e <- m] then [seq e.1 | e <- m] else rcons [seq e.1 | e <- m] k.
Proof.
elim: m => //= -[k0 y] m IH /=; rewrite inE eq_sym; case: eqP => [->|ne] //=.
by rewrite IH; case: ifP.
Qed.
Lemma cfind_keys m k : (k \in [seq e.1 | e <- m]) = (cfind m k != None :> option int).
Proof. by elim: m => //= -[k0 y] m IH; rewrite inE IH eq_sym; case: eqP. Qed.
Lemma cset_uniq m k x : uniq [seq e.1 | e <- m] -> uniq [seq e.1 | e <- cset m k x].
Proof. by rewrite cset_keys; case: ifP => // h; rewrite rcons_uniq h. Qed.
Lemma c_all0 m : uniq [seq e.1 | e <- m] ->
  all (fun e => e.2 == 0) m = all (fun v => cfind m v == Some 0 :> option int) [seq e.1 | e <- m].
Proof.
elim: m => //= -[k0 y] m IH /= /andP[nk u]; rewrite eqxx IH //; congr (_ && _).
apply: eq_in_all => v hv /=; case: (k0 =P v) => // e; by rewrite e hv in nk.
Qed.

Lemma to_mapP t : uniq [seq e.1 | e <- to_unordered_map t] /\
  forall v, cfind (to_unordered_map t) v = if v \in t_vars t then Some ((count_mem v (t_vars t))%:Z) else None.
Proof.
rewrite /to_unordered_map; move: (t_vars t) => vs.
elim/last_ind: vs => [|vs v [u h]] //=; rewrite foldl_rcons.
set m := foldl _ _ _ in u h *; split; first by case: (cfind m v) => [n|]; apply: cset_uniq.
move=> w; rewrite h mem_rcons inE -cats1 count_cat /= addn0 eq_sym.
case: ifP => hv; rewrite cfind_set h.
  case: eqP => [<-|ne]; rewrite ?hv /= ?addn0 // ?PoszD //.
case: eqP => [<-|ne] /=; last by rewrite addn0.
have -> : count_mem v vs = 0%N by apply/count_memPn; rewrite hv.
by [].
Qed.

Lemma eq_loopP m vs : uniq [seq e.1 | e <- m] ->
  match term_eq_loop m vs with
  | Some m' => [/\ uniq [seq e.1 | e <- m'], [seq e.1 | e <- m'] = [seq e.1 | e <- m], {subset vs <= [seq e.1 | e <- m]} &
      forall v, cfind m' v = omap (fun n => n - (count_mem v vs)%:Z) (cfind m v)]
  | None => ~~ all (fun v => v \in [seq e.1 | e <- m]) vs
  end.
Proof.
elim: vs m => [|v vs IH] m u /=.
  by split=> // v; case: (cfind m v) => //= n; rewrite subr0.
case e: (cfind m v) => [n|]; last by rewrite cfind_keys e.
have hv : v \in [seq e.1 | e <- m] by rewrite cfind_keys e.
have := IH (cset m v (n - 1)) (cset_uniq _ _ u); rewrite cset_keys hv.
case: term_eq_loop => [m'|] //= [h1 h2 h3 h4]; split=> //.
  by move=> w; rewrite inE => /orP[/eqP->|/h3].
move=> w; rewrite h4 cfind_set; case: (v =P w) => [<-|ne]; last by rewrite add0n.
by rewrite e /= PoszD opprD addrA.
Qed.

Lemma term_eqbE t u : term_eqb t u = (t_coeff t == t_coeff u) && perm_eq (t_vars t) (t_vars u).
Proof.
rewrite /term_eqb; case: eqP => //= ec.
case: eqP => [es|es] /=; last by symmetry; apply/negP => /perm_size.
have [um hm] := to_mapP t.
have km v : (v \in [seq e.1 | e <- to_unordered_map t]) = (v \in t_vars t) by rewrite cfind_keys hm; case: ifP.
have := eq_loopP (t_vars u) um; case: term_eq_loop => [m'|] => [[h1 h2 h3 h4]|h]; last first.
  symmetry; apply/negP => /perm_mem pm; move: h => /allPn [v hv]; by rewrite km pm hv.
rewrite c_all0 // h2; apply/allP/idP => [h|h v].
  have hc v : v \in t_vars t -> count_mem v (t_vars t) = count_mem v (t_vars u).
    move=> hv; have := h v; rewrite km => /(_ hv); rewrite h4 hm hv /= => /eqP [] /eqP.
    by rewrite subr_eq0 => /eqP [].
  apply/allP => v; rewrite mem_cat => /orP[/hc /= -> //|/h3]; by rewrite km => /hc /= ->.
by rewrite km => hv; rewrite h4 hm hv /= (permP h) subrr.
Qed.

Lemma term_eqb_refl : reflexive (@term_eqb V R).
Proof. by move=> t; rewrite term_eqbE eqxx perm_refl. Qed.
Lemma term_eqb_sym : symmetric (@term_eqb V R).
Proof. by move=> t u; rewrite !term_eqbE eq_sym perm_sym. Qed.
Lemma term_eqb_trans : transitive (@term_eqb V R).
Proof.
by move=> t u v; rewrite !term_eqbE => /andP[/eqP-> h1] /andP[-> h2]; exact: perm_trans h1 h2.
Qed.

Implicit Types (a b c : expr V R).
Lemma arith_op_eqbP o p : reflect (o = p) (arith_op_eqb o p).
Proof. by case: o; case: p => /=; constructor. Qed.
Lemma expr_eqb_refl : reflexive (@expr_eqb V R).
Proof. by elim=> [t|a /= -> n|o a /= -> b ->] /=; rewrite ?term_eqb_refl ?eqxx //; case: o. Qed.
Lemma expr_eqb_sym : symmetric (@expr_eqb V R).
Proof.
elim=> [t|a IH n|o a IHa b IHb] [u|b' m|p a' b'] //=; first exact: term_eqb_sym.
  by rewrite eq_sym IH.
by rewrite IHa IHb; congr (_ && _); case: o; case: p.
Qed.
Lemma expr_eqb_trans : transitive (@expr_eqb V R).
Proof.
move=> b a; elim: a b => [t|a IH n|o a1 IH1 a2 IH2] [u|b m|p b1 b2] // [v|c k|q c1 c2] //=.
- exact: term_eqb_trans.
- by move=> /andP[/eqP-> h1] /andP[-> h2]; rewrite (IH _ _ h1 h2).
- move=> /and3P[/arith_op_eqbP-> h1 h2] /and3P[-> h3 h4]; by rewrite (IH1 _ _ h1 h3) (IH2 _ _ h2 h4).
Qed.

(** ** Values *)
Variable g : V -> R.
Lemma eval_termE t : eval_term g t = t_coeff t * \prod_(v <- t_vars t) g v.
Proof.
rewrite /eval_term; case: t => vs c /=; elim: vs c => [|v vs IH] c /=; first by rewrite big_nil mulr1.
by rewrite IH big_cons mulrA.
Qed.
Lemma eval_term_eq t u : term_eqb t u -> eval_term g t = eval_term g u.
Proof. by rewrite term_eqbE !eval_termE => /andP[/eqP-> h]; rewrite (perm_big _ h). Qed.
Lemma evaluate_eq a b : expr_eqb a b -> evaluate g a = evaluate g b.
Proof.
elim: a b => [t|a IH n|o a1 IH1 a2 IH2] [u|b m|p b1 b2] //=; first exact: eval_term_eq.
  by move=> /andP[/eqP-> /IH->].
by move=> /and3P[/arith_op_eqbP-> /IH1-> /IH2->].
Qed.
Lemma is_empty_val a : is_empty a -> evaluate g a = 0.
Proof. by move=> /evaluate_eq ->; rewrite /= eval_termE mul0r. Qed.
Lemma term_mul_val t u : eval_term g (term_mul t u) = eval_term g t * eval_term g u.
Proof.
rewrite /term_mul /term_is_zero; case: eqP => [e|_] /=; first by rewrite !eval_termE e !mul0r.
case: eqP => [e|_] /=; first by rewrite !eval_termE e !mul0r mulr0.
by rewrite !eval_termE /= big_cat /= [t_coeff u * _]mulrC mulrACA.
Qed.
Lemma e_add_val a b : evaluate g (e_add a b) = evaluate g a + evaluate g b.
Proof.
rewrite /e_add; case: ifP => [/is_empty_val->|_]; first by rewrite add0r.
by case: ifP => [/is_empty_val->|_ //]; rewrite addr0.
Qed.
Lemma e_mul_val a b : evaluate g (e_mul a b) = evaluate g a * evaluate g b.
Proof.
rewrite /e_mul; case: ifP => // /orP[/is_empty_val->|/is_empty_val->]; by rewrite /= eval_termE ?mul0r ?mulr0.
Qed.
Lemma e_add_assign_val a b : evaluate g (e_add_assign a b) = evaluate g a + evaluate g b.
Proof.
rewrite /e_add_assign; case: ifP => [/is_empty_val->|_]; first by rewrite add0r.
by case: ifP => [//|/negbFE /is_empty_val->]; rewrite addr0.
Qed.

(** ** Cached evaluation *)
Notation efind := (hm_find (@expr_eqb V R)).
Notation eset := (hm_set (@expr_eqb V R)).
Definition counted a : bool := if a is Term t then (2 < size (t_vars t))%N else true.
Fixpoint occ (k : expr V R) (e : expr V R) : nat :=
  ((counted e && expr_eqb e k) + match e with Term _ => 0 | Pow b _ => occ k b | Bin _ a b => occ k a + occ k b end)%N.
Lemma efind_set (T : Type) (m : seq (expr V R * T)) k x k' : efind (eset m k x) k' = if expr_eqb k k' then Some x else efind m k'.
Proof. apply: hm_find_set; [exact: expr_eqb_sym | exact: expr_eqb_trans]. Qed.
Lemma count_of_set (m : seq (expr V R * nat)) k n k' : count_of (eset m k n) k' = if expr_eqb k k' then n else count_of m k'.
Proof. by rewrite /count_of efind_set; case: ifP. Qed.
Lemma count_of_eq (m : seq (expr V R * nat)) k k' : expr_eqb k k' -> count_of m k = count_of m k'.
Proof.
by move=> h; rewrite /count_of (hm_find_eq expr_eqb_sym expr_eqb_trans _ h).
Qed.
Lemma count_bump (m : seq (expr V R * nat)) a k : count_of (bump m a) k = (count_of m k + expr_eqb a k)%N.
Proof. by rewrite /bump count_of_set; case: ifP => h; rewrite ?addn0 // (count_of_eq _ h) addn1. Qed.
Lemma count_subexprsP (m : seq (expr V R * nat)) a k : count_of (count_subexprs m a) k = (count_of m k + occ k a)%N.
Proof.
elim: a m => [t|a IH n|o a1 IH1 a2 IH2] m /=.
- by case: ifP => h; rewrite ?addn0 // count_bump.
- by rewrite IH count_bump addnA.
- by rewrite IH2 IH1 count_bump !addnA.
Qed.

Definition cache_ok (c : seq (expr V R * R)) : bool := all (fun e => e.2 == evaluate g e.1) c.
Lemma cache_ok_find (c : seq (expr V R * R)) a x : cache_ok c -> efind c a = Some x -> x = evaluate g a.
Proof.
elim: c => //= -[k y] c IH /andP[/eqP e ok]; case: ifP => h; last exact: IH.
by move=> [<-]; rewrite -(evaluate_eq h).
Qed.
Lemma cache_ok_set (c : seq (expr V R * R)) a : cache_ok c -> cache_ok (eset c a (evaluate g a)).
Proof.
elim: c => [|[k y] c IH] /=; first by rewrite eqxx.
move=> /andP[e ok]; case: ifP => h /=; last by rewrite e IH.
by rewrite (evaluate_eq h) eqxx.
Qed.
Lemma cache_ok_erase (c : seq (expr V R * R)) a : cache_ok c -> cache_ok (hm_erase (@expr_eqb V R) c a).
Proof. by elim: c => //= -[k y] c IH /andP[e ok]; case: ifP => //= _; rewrite e IH. Qed.

Lemma ceval_termE t : ceval_term g t = eval_term g t.
Proof.
rewrite /ceval_term /eval_term; move: (t_coeff t) => c; elim: (t_vars t) c => //= v vs IH c.
by rewrite IH; case: eqP => [->|//]; rewrite mul1r.
Qed.

Lemma cache_hit_ok st a : cache_ok (cs_cache st) -> counted a -> (forall k, occ k a <= count_of (cs_counts st) k)%N ->
  exists st', [/\ cache_hit st a (evaluate g a) = Some (evaluate g a, st'), cache_ok (cs_cache st') &
    forall k, (count_of (cs_counts st) k <= count_of (cs_counts st') k + occ k a)%N].
Proof.
move=> ok ct h; have own k : (expr_eqb a k <= occ k a)%N by case: (a) ct => [t|b n|o b1 b2] ct; rewrite /occ -/occ ct leq_addr.
have pos : (0 < count_of (cs_counts st) a)%N by apply: leq_trans (h a); apply: leq_trans (own a); rewrite expr_eqb_refl.
rewrite /cache_hit; case e: (count_of _ _) pos => [//|n] _.
eexists; split; first by reflexivity.
  by rewrite /=; case: ifP => // _; apply: cache_ok_erase.
move=> k; rewrite /= count_of_set; case: ifP => hk; last by rewrite leq_addr.
rewrite -(count_of_eq _ hk) e; apply: leq_trans (leq_add (leqnn n) (own k)); by rewrite hk addn1.
Qed.
Lemma cache_store_ok st a : cache_ok (cs_cache st) ->
  [/\ (cache_store st a (evaluate g a)).1 = evaluate g a, cache_ok (cs_cache (cache_store st a (evaluate g a)).2)
   & cs_counts (cache_store st a (evaluate g a)).2 = cs_counts st].
Proof. by move=> ok; rewrite /cache_store; case: ifP => _ //=; split=> //; apply: cache_ok_set. Qed.

Lemma ceval_ok a st : cache_ok (cs_cache st) -> (forall k, occ k a <= count_of (cs_counts st) k)%N ->
  exists st', [/\ ceval g st a = Some (evaluate g a, st'), cache_ok (cs_cache st') &
    forall k, (count_of (cs_counts st) k <= count_of (cs_counts st') k + occ k a)%N].
Proof.
elim: a st => [t|a IH n|o a1 IH1 a2 IH2] st ok h.
- rewrite [ceval _ _ _]/=; case: eqP => [e|_].
    exists st; split=> //; last by move=> k; rewrite leq_addr.
    by rewrite /= /eval_term (size0nil e).
  have store : exists st' : cstate V R, [/\ Some (cache_store st (Term t) (ceval_term g t)) = Some (eval_term g t, st'), cache_ok (cs_cache st') &
     forall k, (count_of (cs_counts st) k <= count_of (cs_counts st') k + occ k (Term t))%N].
    rewrite ceval_termE; have [h1 h2 h3] := @cache_store_ok st (Term t) ok.
    exists (cache_store st (Term t) (eval_term g t)).2; rewrite h2 h3; split=> //.
    by move=> k; rewrite leq_addr.
  case: ifP => // sz; case e: (efind _ _) => [x|//].
  by rewrite (cache_ok_find ok e); apply: cache_hit_ok.
- rewrite [ceval _ _ _]/=; case e: (efind _ _) => [x|]; first by rewrite (cache_ok_find ok e); apply: cache_hit_ok.
  have [|st' [-> ok' h']] := IH st ok; first by move=> k; apply: leq_trans (h k); rewrite /= leq_addl.
  have [h1 h2 h3] := @cache_store_ok st' (Pow a n) ok'.
  rewrite /=; exists (cache_store st' (Pow a n) (evaluate g (Pow a n))).2; split=> //.
  by rewrite h3 => k; apply: leq_trans (h' k) _; rewrite leq_add2l leq_addl.
- rewrite [ceval _ _ _]/=; case e: (efind _ _) => [x|]; first by rewrite (cache_ok_find ok e); apply: cache_hit_ok.
  have [|st1 [-> ok1 h1]] := IH1 st ok.
    by move=> k; apply: leq_trans (h k); rewrite /= addnCA leq_addr.
  have [|st2 [e2 ok2 h2]] := IH2 st1 ok1.
    move=> k; have := leq_trans (h k) (h1 k); rewrite /= addnCA addnC leq_add2r => hh.
    by apply: leq_trans hh; rewrite leq_addl.
  rewrite /= e2 /=; have [h3 h4 h5] := @cache_store_ok st2 (Bin o a1 a2) ok2.
  exists (cache_store st2 (Bin o a1 a2) (evaluate g (Bin o a1 a2))).2; split=> //.
  rewrite h5 => k; apply: leq_trans (h1 k) _; apply: leq_trans (leq_add (h2 k) (leqnn _)) _.
  by rewrite /= -addnA leq_add2l [X in (X <= _)%N]addnC leq_addl.
Qed.

(** ** Sums of monomials *)
Definition nval (l : nlc V R) : R := \sum_(t <- l) eval_term g t.
Lemma nval_add (a b : nlc V R) : nval (nlc_add a b) = nval a + nval b.
Proof. by rewrite /nval /nlc_add big_cat. Qed.
Lemma nval_scale (a : nlc V R) (c : R) : nval (nlc_scale a c) = nval a * c.
Proof.
rewrite /nval /nlc_scale big_map big_distrl /=; apply: eq_bigr => t _.
by rewrite term_mul_val [X in _ * X]eval_termE big_nil mulr1.
Qed.
Lemma nval_sub (a b : nlc V R) : nval (nlc_sub a b) = nval a - nval b.
Proof. by rewrite nval_add nval_scale mulrN1. Qed.
Lemma nval_mul (a b : nlc V R) : nval (nlc_mul a b) = nval a * nval b.
Proof.
rewrite /nval /nlc_mul big_flatten big_map big_distrl /=; apply: eq_bigr => t _.
by rewrite big_map big_distrr /=; apply: eq_bigr => u _; rewrite term_mul_val.
Qed.
Lemma nval_to_nlc e : powers_positive e -> nval (to_nlc e) = evaluate g e.
Proof.
elim: e => [t|a IH n|o a1 IH1 a2 IH2] /=; first by rewrite /nval big_seq1.
  move=> /andP[n0 /IH h]; case: n n0 => // n _; rewrite subn1 /=.
  by elim: n => [|n IHn] /=; rewrite ?expr1 // nval_mul IHn h -exprSr.
by move=> /andP[/IH1 h1 /IH2 h2]; case: o; rewrite -?h1 -?h2 (nval_add, nval_sub, nval_mul).
Qed.

Notation tfind := (hm_find (@term_eqb V R)).
Notation tset := (hm_set (@term_eqb V R)).
Definition mval (m : seq (eterm V R * R)) : R := \sum_(e <- m) e.2 * \prod_(v <- t_vars e.1) g v.
Lemma mval_set (m : seq (eterm V R * R)) k x : mval (tset m k x) = mval m + (x - odflt 0 (tfind m k)) * \prod_(v <- t_vars k) g v.
Proof.
rewrite /mval; elim: m => [|[k' y] m IH] /=; first by rewrite big_seq1 big_nil add0r subr0.
case: ifP => h /=; rewrite !big_cons /=; last by rewrite IH addrA.
move: h; rewrite term_eqbE => /andP[_ h]; rewrite (perm_big _ h) /=.
by rewrite mulrBl addrAC addrCA subrr addr0 addrC.
Qed.
Lemma mval_merge l : mval (merge_map l) = nval l.
Proof.
rewrite /merge_map; elim/last_ind: l => [|l t IH]; first by rewrite /mval /nval !big_nil.
rewrite foldl_rcons /=; set m := foldl _ _ _ in IH *.
rewrite /nval -cats1 big_cat big_seq1 /= -/(nval l) -IH eval_termE.
case e: (tfind m _) => [c|] /=; rewrite mval_set e /= ?subr0 //.
by rewrite addrAC subrr add0r.
Qed.
Lemma nval_merge l : nval (merge_equal_terms l) = nval l.
Proof.
rewrite -[RHS]mval_merge /merge_equal_terms /nval big_map big_filter /mval.
rewrite [RHS](bigID (fun e => e.2 != 0)) /= [X in _ + X]big1 ?addr0; last by move=> e /negPn /eqP ->; rewrite mul0r.
by apply: eq_bigr => e _; rewrite eval_termE.
Qed.

Lemma nval_spec l : nval l = sum_of_monomials g l.
Proof. by rewrite /nval /sum_of_monomials; apply: eq_bigr => t _; rewrite eval_termE. Qed.

(** the merged terms have pairwise different variable multisets *)
Lemma merge_map_keys (l : nlc V R) : all (fun e => t_coeff e.1 == 1) (merge_map l) /\ pairwise (fun x y => ~~ term_eqb x.1 y.1) (merge_map l).
Proof.
rewrite /merge_map; elim/last_ind: l => [|l t [h1 h2]] //; rewrite foldl_rcons.
set m := foldl _ _ _ in h1 h2 *; have K x : all (fun e => t_coeff e.1 == 1) (tset m (term_of_vars R (t_vars t)) x).
  by elim: (m) h1 => [|[k y] m' IH] /=; rewrite ?eqxx // => /andP[e h]; case: ifP => _ /=; rewrite ?e ?h //= IH.
by split; [case: (tfind m _) => [c|]; apply: K | case: (tfind m _) => [c|]; apply: hm_set_pairwise].
Qed.
Lemma merge_distinct (l : nlc V R) : pairwise (fun t u => ~~ perm_eq (t_vars t) (t_vars u)) (merge_equal_terms l) /\
  all (fun t => t_coeff t != 0) (merge_equal_terms l).
Proof.
have [h1 h2] := merge_map_keys l; rewrite /merge_equal_terms pairwise_map all_map; split; last first.
  by elim: (merge_map l) => //= e m IH; case: ifP => //= ->.
elim: (merge_map l) h1 h2 => //= -[k x] m IH /= /andP[e1 a1] /andP[e2 a2]; case: ifP => _ /=; last exact: IH.
rewrite IH // andbT all_filter.
elim: m e2 a1 {IH a2} => //= -[k' y] m IH /= /andP[n1 n2] /andP[c1 c2]; rewrite IH // andbT; apply/implyP => _ /=.
by move: n1; rewrite term_eqbE (eqP e1) (eqP c1) eqxx.
Qed.

(** ** Equality of sums of monomials *)
Lemma nlc_eqbP (a b : nlc V R) : nlc_eqb a b <-> (forall t, count (term_eqb t) a = count (term_eqb t) b).
Proof.
rewrite -(bag_eqP term_eqb_refl term_eqb_sym term_eqb_trans) /nlc_eqb /bag_count.
have E (m : seq (eterm V R * int)) : nlc_eq_loop m b = bag_loop (@term_eqb V R) m b.
  by elim: b m => //= t b' IH m; case: (hm_find _ m t) => // n.
by rewrite E.
Qed.
Lemma nlc_eq_val (a b : nlc V R) : nlc_eqb a b -> nval a = nval b.
Proof.
move=> /nlc_eqbP h; rewrite /nval; apply: (bag_big term_eqb_refl term_eqb_sym term_eqb_trans _ h).
exact: eval_term_eq.
Qed.

(** ** Degrees *)
Lemma degree_exact (e : expr V R) : degree_fits e -> compute_max_degree e = exact_degree e.
Proof.
have sm n : N.ltb n (N.pow 2 32) -> u32 n = n by move=> /N.ltb_lt h; rewrite /u32 N.mod_small.
elim: e => [t|a IH n|o a IHa b IHb]; first by move=> /= /andP[h _]; rewrite sm.
  by move=> /= /andP[h /IH ->]; rewrite sm.
by move=> /= /andP[h /andP[/IHa -> /IHb ->]]; case: o h => h //; rewrite sm.
Qed.
Definition vars_le (d : nat) (l : nlc V R) : bool := all (fun t => size (t_vars t) <= d)%N l.
Lemma vars_le_mono d d' l : (d <= d')%N -> vars_le d l -> vars_le d' l.
Proof. by move=> h; apply: sub_all => t /leq_trans ->. Qed.
Lemma vars_le_scale d l (c : R) : vars_le d l -> vars_le d (nlc_scale l c).
Proof.
rewrite /vars_le /nlc_scale all_map; apply: sub_all => t h /=.
by rewrite /term_mul; case: ifP => // _; rewrite /= cats0.
Qed.
Lemma vars_le_mul d d' l l' : vars_le d l -> vars_le d' l' -> vars_le (d + d') (nlc_mul l l').
Proof.
rewrite /nlc_mul => h h'; elim: l h => //= t l IH /andP[ht hl]; rewrite /vars_le all_cat -/(vars_le _ _) -/(vars_le _ (flatten _)).
rewrite IH // andbT /vars_le all_map; apply: sub_all h' => u hu /=.
by rewrite /term_mul; case: ifP => // _; rewrite /= size_cat leq_add.
Qed.
Lemma nlc_degree (e : expr V R) : powers_positive e -> vars_le (N.to_nat (exact_degree e)) (to_nlc e).
Proof.
elim: e => [t|a IH n|o a IHa b IHb] /=.
- by rewrite /vars_le /= Nnat.Nat2N.id leqnn.
- move=> /andP[n0 /IH h]; rewrite Nnat.N2Nat.inj_mul Nnat.Nat2N.id; case: n n0 => // n _; rewrite subn1 /=.
  elim: n => [|n IHn] /=; first by rewrite PeanoNat.Nat.mul_1_r.
  by have := vars_le_mul IHn h; apply: vars_le_mono; rewrite !multE [in X in (_ <= X)%N]mulnS addnC.
- move=> /andP[/IHa ha /IHb hb].
  case: o; rewrite ?Nnat.N2Nat.inj_max ?Nnat.N2Nat.inj_add; last by apply: vars_le_mul.
    by rewrite /nlc_add /vars_le all_cat; apply/andP; split; [move: ha | move: hb]; apply: vars_le_mono; apply/leP; lia.
  rewrite /nlc_sub /nlc_add /vars_le all_cat; apply/andP; split; last apply: vars_le_scale.
    by move: ha; apply: vars_le_mono; apply/leP; lia.
  by move: hb; apply: vars_le_mono; apply/leP; lia.
Qed.
Lemma merge_degree d (l : nlc V R) : vars_le d l -> vars_le d (merge_equal_terms l).
Proof.
move=> h; rewrite /vars_le /merge_equal_terms all_map all_filter.
suff : all (fun e => size (t_vars e.1) <= d)%N (merge_map l) by apply: sub_all => e he; apply/implyP.
rewrite /merge_map; elim/last_ind: l h => [|l t IH] //; rewrite /vars_le all_rcons foldl_rcons => /andP[ht /IH].
set m := foldl _ _ _ => hm.
have K x : all (fun e => size (t_vars e.1) <= d)%N (tset m (term_of_vars R (t_vars t)) x).
  by elim: (m) hm => [|[k y] m' IHm] /=; rewrite ?ht // => /andP[e h]; case: ifP => _ /=; rewrite ?e ?h //= IHm.
by case: (tfind m _).
Qed.
End TermEq.

(** ** Conversion of the coefficient type *)
Section Conv.
Variables (V V' : eqType) (R R' : comRingType) (f : {rmorphism R -> R'}) (cv : V -> V') (g : V -> R) (g' : V' -> R').
Hypothesis gg : forall v, g' (cv v) = f (g v).
Lemma convert_val e : evaluate g' (convert_expr cv f e) = f (evaluate g e).
Proof.
elim: e => [t|a IH n|o a IHa b IHb] /=.
- rewrite !eval_termE /= rmorphM rmorph_prod big_map; congr (_ * _); by apply: eq_bigr.
- by rewrite rmorphX IH.
- case: o; first by rewrite e_add_val IHa IHb rmorphD.
    by rewrite /= IHa IHb rmorphB.
  by rewrite e_mul_val IHa IHb rmorphM.
Qed.
End Conv.

(** ** Degree of a substitution of polynomials *)
Section Subst.
Variables (V V' : eqType) (R : comRingType) (cv : V -> V') (g : V' -> {poly R}) (n : nat).
Lemma predle a b : (a <= b.+1 -> a.-1 <= b)%N. Proof. by case: a. Qed.
Hypothesis gn : forall v, (size (g v) <= n.+1)%N.
Lemma size_subst (e : expr V R) : (size (evaluate g (convert_expr cv polyC e)) <= (n * N.to_nat (exact_degree e)).+1)%N.
Proof.
elim: e => [t|a IH m|o a IHa b IHb] /=.
- rewrite eval_termE /= Nnat.Nat2N.id big_map; apply: leq_trans (size_mul_leq _ _) _.
  rewrite size_polyC; have : (size (\prod_(v <- t_vars t) g (cv v))%R <= (n * size (t_vars t)).+1)%N.
    elim: (t_vars t) => [|v vs IH]; first by rewrite big_nil size_poly1.
    rewrite big_cons; apply: leq_trans (size_mul_leq _ _) _.
    by apply: predle; have := leq_add (gn (cv v)) IH; rewrite addSn addnS -mulnS.
  by case: (t_coeff t != 0) => h /=; [| apply: leq_trans (leq_pred _) h].
- apply: leq_trans (size_exp_leq _ _) _; rewrite Nnat.N2Nat.inj_mul Nnat.Nat2N.id multE ltnS mulnA leq_mul2r.
  by apply/orP; right; apply: predle.
- case: o; rewrite ?e_add_val ?e_mul_val /= ?Nnat.N2Nat.inj_max ?Nnat.N2Nat.inj_add.
  + apply: leq_trans (size_add _ _) _; rewrite geq_max; apply/andP; split; [apply: leq_trans IHa _ | apply: leq_trans IHb _]; rewrite ltnS leq_mul2l; apply/orP; right; apply/leP; lia.
  + apply: leq_trans (size_add _ _) _; rewrite size_opp geq_max; apply/andP; split; [apply: leq_trans IHa _ | apply: leq_trans IHb _]; rewrite ltnS leq_mul2l; apply/orP; right; apply/leP; lia.
  + apply: leq_trans (size_mul_leq _ _) _; rewrite plusE mulnDr.
    by apply: predle; have := leq_add IHa IHb; rewrite addSn addnS.
Qed.
End Subst.

(** ** Hashing *)
Section Hash.
Variables (V : eqType) (R : comRingType) (hV : V -> nat) (hR : R -> nat) (comb : nat -> nat -> nat) (hn : nat -> nat) (ltV : rel V).
Hypothesis ltV_irr : irreflexive ltV.
Hypothesis ltV_trans : transitive ltV.
Hypothesis ltV_total : forall a b, [|| a == b, ltV a b | ltV b a].
Lemma sort_vars_perm (s1 s2 : seq V) : perm_eq s1 s2 -> sort_vars ltV s1 = sort_vars ltV s2.
Proof.
have asym a b : ltV a b -> ~~ ltV b a by move=> h; apply/negP => /(ltV_trans h); rewrite ltV_irr.
have le a b : ~~ ltV b a = (a == b) || ltV a b.
  apply/idP/orP => [h|[/eqP->|/asym //]]; last by rewrite ltV_irr.
  by move: (ltV_total a b); rewrite (negbTE h) orbF => /orP.
move=> h; apply/perm_sortP => //.
- by move=> a b; rewrite !le; case/or3P: (ltV_total a b) => [/eqP->|->|->]; rewrite ?eqxx ?orbT.
- move=> b a c; rewrite !le => /orP[/eqP-> //|h1] /orP[/eqP<-|h2]; first by rewrite h1 orbT.
  by rewrite (ltV_trans h1 h2) orbT.
- move=> a b /andP[]; rewrite !le => /orP[/eqP //|h1] /orP[/eqP //|h2].
  by move: (ltV_trans h1 h2); rewrite ltV_irr.
Qed.
Lemma term_hash_eq (t u : eterm V R) : term_eqb t u -> term_hash hV hR comb ltV t = term_hash hV hR comb ltV u.
Proof. by rewrite term_eqbE /term_hash => /andP[/eqP-> /sort_vars_perm->]. Qed.
Lemma expr_hash_eq (a b : expr V R) : expr_eqb a b -> expr_hash hV hR comb hn ltV a = expr_hash hV hR comb hn ltV b.
Proof.
elim: a b => [t|a IH n|o a1 IH1 a2 IH2] [u|b m|p b1 b2] //=; first exact: term_hash_eq.
  by move=> /andP[/eqP-> /IH->].
by move=> /and3P[/arith_op_eqbP-> /IH1-> /IH2->].
Qed.
End Hash.

(** ** PLONK variables *)
Lemma pv_eqbE a b : pv_eqb a b = (a == b).
Proof.
case: a b => i r l t [i' r' l' t']; rewrite /pv_eqb /=; apply/and4P/eqP => [[/eqP-> /eqP-> /eqP-> /eqP->] // | [-> -> -> ->]].
by rewrite !eqxx.
Qed.
Lemma pv_ltb_irr : irreflexive pv_ltb.
Proof. by move=> a; rewrite /pv_ltb !eqxx /= ltnn. Qed.
Lemma ct_code_inj : injective ct_code. Proof. exact: can_inj ct_codeK. Qed.
Lemma pv_ltb_total a b : [|| a == b, pv_ltb a b | pv_ltb b a].
Proof.
case: a b => i r l t [i' r' l' t']; rewrite /pv_ltb /= -pv_eqbE /pv_eqb /=.
rewrite [i' == i]eq_sym [r' == r]eq_sym [t' == t]eq_sym.
case: (ltngtP i i') => //= _; case: (Order.TotalTheory.ltgtP r r') => //= _.
case: eqP => [_|ne] /=; first by case: l; case: l'.
by case: ltngtP => // e; case: ne; apply: ct_code_inj.
Qed.
Lemma pv_ltbP a b : reflect
  ((pv_index a < pv_index b)%N \/ pv_index a = pv_index b /\ (pv_rotation a < pv_rotation b \/ pv_rotation a = pv_rotation b /\
    ((ct_code (pv_type a) < ct_code (pv_type b))%N \/ pv_type a = pv_type b /\ (pv_relative a < pv_relative b)%N))) (pv_ltb a b).
Proof.
case: a b => i r l t [i' r' l' t']; rewrite /pv_ltb /=; apply: (iffP idP).
  case: (eqVneq i i') => [->|_] /=; last by left.
  case: (eqVneq r r') => [->|_] /= h; right; split=> //; last by left.
  by right; split=> //; move: h; case: (eqVneq t t') => [->|_] /=; [right | left].
case=> [h|[-> [h|[-> [h|[-> h]]]]]]; rewrite ?eqxx //=.
- by rewrite neq_ltn h.
- by rewrite Order.POrderTheory.lt_eqF.
- have -> // : t != t' by apply/eqP => e; rewrite e ltnn in h.
Qed.
Lemma pv_ltb_trans : transitive pv_ltb.
Proof.
move=> b a c /pv_ltbP h1 /pv_ltbP h2; apply/pv_ltbP.
case: h1 => [h1|[e1 h1]]; first by left; case: h2 => [/(ltn_trans h1)|[<- _]].
rewrite e1; case: h2 => [->|[e2 h2]]; [by left | right; split=> //].
case: h1 => [h1|[e3 h1]]; first by left; case: h2 => [/(Order.POrderTheory.lt_trans h1)|[<- _]].
rewrite e3; case: h2 => [->|[e4 h2]]; [by left | right; split=> //].
case: h1 => [h1|[e5 h1]]; first by left; case: h2 => [/(ltn_trans h1)|[<- _]].
rewrite e5; case: h2 => [->|[e6 h2]]; [by left | right; split=> //].
exact: ltn_trans h1 h2.
Qed.
Lemma pv_gtbE a b : pv_gtb a b = pv_ltb b a.
Proof.
rewrite /pv_gtb pv_eqbE; have := pv_ltb_total a b; case: eqP => [->|_] /=; first by rewrite pv_ltb_irr.
case: (boolP (pv_ltb a b)) => //= h _; symmetry; apply/negP => /(pv_ltb_trans h); by rewrite pv_ltb_irr.
Qed.
