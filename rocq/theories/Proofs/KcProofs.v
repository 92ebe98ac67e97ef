(** Knowledge-commitment vectors. *)
From mathcomp Require Import all_ssreflect all_algebra.
From Verif.Model Require Import Base KnowledgeCommitment.
From Verif.Proofs Require Import NatTac LinearProofs DomainProofs.
Set Implicit Arguments.
Unset Strict Implicit.
Unset Printing Implicit Defensive.
Import GRing.Theory.
Local Open Scope ring_scope.

Section Multi.
Variables (F : fieldType) (V : lmodType F).

Lemma multiexpE (g : seq V) (p : seq F) n : (size g <= n)%N || (size p <= n)%N ->
  multiexp g p = \sum_(i < n) nth 0 p i *: nth 0 g i.
Proof.
elim: g p n => [|x g IH] [|c p] n /=.
- by move=> _; rewrite big1 // => i _; rewrite !nth_nil scaler0.
- by move=> _; rewrite big1 // => i _; rewrite [nth _ [::] _]nth_nil scaler0.
- by move=> _; rewrite big1 // => i _; rewrite [nth _ [::] _]nth_nil scale0r.
case: n => [|n]; first by [].
by rewrite !ltnS => h; rewrite big_ord_recl /= (IH _ _ h).
Qed.

Lemma multiexp_rcons (g : seq V) (p : seq F) x c : size g = size p ->
  multiexp (rcons g x) (rcons p c) = multiexp g p + c *: x.
Proof.
elim: g p => [|y g IH] [|d p] //=; first by rewrite addr0 add0r.
by case=> /IH ->; rewrite addrA.
Qed.

(** Products by a common base. *)
Lemma multiexp_scale (b : V) (u : seq F) (p : seq F) :
  multiexp [seq c *: b | c <- u] p = (\sum_(i < minn (size u) (size p)) nth 0 u i * nth 0 p i) *: b.
Proof.
elim: u p => [|x u IH] [|c p] /=; rewrite ?min0n ?minn0 ?big_ord0 ?scale0r //.
by rewrite minnSS big_ord_recl /= IH scalerA scalerDl [c * x]mulrC.
Qed.
End Multi.

Lemma ofold_rcons (A : eqType) (B : Type) (h : A -> B) (f : A -> option B) r (l : seq A) :
  (forall i, i \in l -> f i = Some (h i)) ->
  ofold (fun r i => omap (rcons r) (f i)) r l = Some (r ++ [seq h i | i <- l]).
Proof.
elim: l r => [|x l IH] r hf /=; first by rewrite cats0.
rewrite hf ?mem_head //= IH ?cat_rcons // => i il; by rewrite hf // in_cons il orbT.
Qed.

Section Kc.
Variables (F : fieldType) (T1 T2 : lmodType F).
Implicit Types (v s : seq F).

Lemma chunk_loopP v (i : nat) cnt k cs nc (pos : seq nat) :
  (k <= nc)%N -> size pos = nc.+1 -> (cnt < cs)%N || (k == nc) ->
  ((nc - k) * cs <= cnt + count (fun x : F => x != 0%R) v)%N ->
  exists pos', [/\ chunk_loop v i cnt k cs nc pos = Some pos', size pos' = nc.+1,
    forall j, (j < k)%N || (nc <= j)%N -> nth 0%N pos' j = nth 0%N pos j,
    forall j, (k <= j < nc)%N -> (i <= nth 0%N pos' j < i + size v)%N
    & forall j j', (k <= j)%N -> (j <= j')%N -> (j' < nc)%N -> (nth 0%N pos' j <= nth 0%N pos' j')%N].
Proof.
elim: v i cnt k pos => [|x v IH] i cnt k pos hk sp hc hr /=.
  have e : k = nc.
    case/orP: hc => [hc|/eqP //]; move: hr; rewrite addn0.
    case: (posnP (nc - k)) => [h _|h hr]; first by move/eqP: h; rewrite subn_eq0 => h; apply/eqP; rewrite eqn_leq hk.
    have : (cs <= (nc - k) * cs)%N by rewrite leq_pmull.
    by move=> h2; move: (leq_trans h2 hr); rewrite leqNgt hc.
  exists pos; split=> // j; first by rewrite e; slia.
  by move=> j' h1 h2 h3; slia.
set cnt' := (cnt + _)%N.
case: ifP => [/andP[/eqP ec lk]|hn].
  rewrite /vset sp ltnS hk /=.
  set pos1 := _ ++ _.
  have s1 : size pos1 = nc.+1 by have := @size_vset _ pos k i; rewrite /vset sp ltnS hk => /(_ _ erefl) ->.
  have n1 j : nth 0%N pos1 j = if j == k then i else nth 0%N pos j.
    by have := @nth_vset _ 0%N pos k i; rewrite /vset sp ltnS hk => /(_ _ j erefl) ->.
  have [||||pos' [e1 e2 e3 e4 e5]] := IH i.+1 0%N k.+1 pos1 => //.
  - by case/orP: hc => [hc|/eqP e]; [rewrite (leq_ltn_trans _ hc) | rewrite e ltnn in lk].
  - move: hr; rewrite /= addnA -/cnt' ec add0n.
    by rewrite -(subnSK lk) mulSn leq_add2l.
  exists pos'; split=> //.
  - move=> j hj; rewrite e3 ?n1; last by slia.
    by case: eqP => // ej; move: hj; rewrite ej ltnn /= leqNgt lk.
  - move=> j /andP[hj1 hj2]; case: (eqVneq j k) => [->|nj].
      by rewrite e3 ?ltnSn // n1 eqxx; slia.
    by have := e4 j; rewrite hj2 ltn_neqAle eq_sym nj hj1 /= => /(_ isT); slia.
  move=> j j' h1 h2 h3; case: (eqVneq j k) => [ej|nj].
    rewrite {1}ej e3 ?ltnSn // n1 eqxx.
    case: (eqVneq j' k) => [ej'|nj']; first by rewrite ej' e3 ?ltnSn // n1 eqxx.
    have hkj : (k < j')%N by rewrite ltn_neqAle eq_sym nj' (leq_trans h1).
    by have := e4 j'; rewrite h3 hkj /= => /(_ isT); slia.
  by apply: e5 => //; rewrite ltn_neqAle eq_sym nj.
have [||pos' [e1 e2 e3 e4 e5]] := IH i.+1 cnt' k pos hk sp.
- case/orP: hc => [hc|->]; last by rewrite orbT.
  case: (eqVneq k nc) => [_|nk]; first by rewrite orbT.
  rewrite orbF ltn_neqAle.
  have lk : (k < nc)%N by rewrite ltn_neqAle nk.
  have h2 : (cnt' <= cs)%N by rewrite /cnt'; case: (x != 0); rewrite ?addn1 // addn0 ltnW.
  by rewrite h2 andbT; apply/eqP => h3; rewrite h3 eqxx lk in hn.
- by move: hr; rewrite /= addnA.
exists pos'; split=> //.
by move=> j /e4; slia.
Qed.

Lemma filter_chunks (a : pred nat) (P : nat -> nat) n : P 0%N = 0%N ->
  (forall i, (i < n)%N -> (P i <= P i.+1)%N) ->
  flatten [seq [seq p <- iota (P i) (P i.+1 - P i) | a p] | i <- iota 0 n] = [seq p <- iota 0 (P n) | a p].
Proof.
move=> p0; elim: n => [|n IH] hp; first by rewrite p0.
rewrite -[n.+1]addn1 iotaD map_cat flatten_cat IH; last by move=> i h; apply: hp; rewrite ltnW.
by rewrite /= cats0 -filter_cat add0n addn1 -{2}[P n]add0n -iotaD subnKC // hp.
Qed.

Definition kc_support v : seq nat := [seq i <- iota 0 (size v) | nth 0 v i != 0].
Definition kc_entry (b1 : T1) (b2 : T2) (c1 c2 : F) v i := ((c1 * nth 0 v i) *: b1, (c2 * nth 0 v i) *: b2).

Lemma kc_batch_expE b1 b2 c1 c2 v chunks :
  kc_batch_exp b1 b2 c1 c2 v chunks
  = Some (KcVector (kc_support v) [seq kc_entry b1 b2 c1 c2 v i | i <- kc_support v] (size v)).
Proof.
rewrite /kc_batch_exp; set nz := count _ _; set nc := maxn _ _; set cs := (nz %/ nc)%N.
have nc0 : (0 < nc)%N by rewrite leq_max.
have [||||pos0 [-> s0 h1 h2 h3]] := @chunk_loopP v 0 0 1 cs nc (nseq nc.+1 0%N) => //.
- by rewrite size_nseq.
- rewrite /cs divn_gt0 //; case: (posnP nz) => [z|z].
    by rewrite /nc z min0n maxn0 orbT.
  by rewrite /nc geq_max z geq_minl.
- by rewrite add0n -/nz; apply: leq_trans (leq_trunc_div nz nc); rewrite mulnC leq_mul2l leq_subr orbT.
rewrite /= /vset s0 ltnSn /=; set pos := _ ++ _.
have hpos j : nth 0%N pos j = if j == nc then size v else nth 0%N pos0 j.
  by have := @nth_vset _ 0%N pos0 nc (size v); rewrite /vset s0 ltnSn => /(_ _ j erefl) ->.
pose P j := nth 0%N pos j.
have P0 : P 0%N = 0%N by rewrite /P hpos eq_sym (negbTE (lt0n_neq0 nc0)) h1 // nth_nseq if_same.
have Pn : P nc = size v by rewrite /P hpos eqxx.
have Pm j : (j < nc)%N -> (P j <= P j.+1)%N && (P j.+1 <= size v)%N.
  move=> lj; rewrite /P !hpos (ltn_eqF lj).
  have hj : (nth 0%N pos0 j <= size v)%N.
    case: j lj => [|j] lj; first by rewrite h1 // nth_nseq if_same.
    by have := h2 j.+1; rewrite lj /= add0n => /(_ isT) /ltnW.
  case: eqP => [_|/eqP nj]; first by rewrite hj leqnn.
  have lj1 : (j.+1 < nc)%N by rewrite ltn_neqAle nj.
  have := h2 j.+1; rewrite lj1 /= add0n => /(_ isT) /ltnW ->; rewrite andbT.
  case: j lj hj nj lj1 => [|j] lj hj nj lj1; first by rewrite h1 // nth_nseq if_same.
  by apply: h3 => //.
pose chunk i := let idx := [seq p <- iota (P i) (P i.+1 - P i) | nth 0 v p != 0] in
   KcVector idx [seq kc_entry b1 b2 c1 c2 v p | p <- idx] 0.
rewrite (@ofold_rcons _ _ chunk) => [|i]; last first.
  rewrite mem_iota add0n => /andP[_ li]; have /andP[hm hs] := Pm i li.
  by rewrite /kc_batch_exp_internal -/(P i) -/(P i.+1) hm hs.
have hfl : flatten [seq [seq p <- iota (P i) (P i.+1 - P i) | nth 0 v p != 0] | i <- iota 0 nc] = kc_support v.
  by rewrite (@filter_chunks _ P) // ?Pn // => i /Pm /andP[].
rewrite cat0s /=; case: eqP => [e1|_].
  move: hfl; rewrite e1 /= cats0 => hfl.
  by rewrite hfl.
congr (Some (KcVector _ _ _)); rewrite -map_comp ?[LHS]hfl // -[in RHS]hfl map_flatten -!map_comp //.
Qed.

(** A vector with increasing indices, one value each. *)
Definition kc_ok (vec : kc_vector T1 T2) :=
  sorted ltn (kv_indices vec) && (size (kv_values vec) == size (kv_indices vec)).

Lemma kc_loopP lo hi idx (vals : seq (T1 * T2)) s (acc : T1 * T2) p (g : seq (T1 * T2)) :
  sorted ltn idx -> size vals = size idx -> all (fun i => lo <= i)%N idx ->
  (hi <= lo + size s)%N -> size g = size p ->
  exists r, [/\ kc_loop lo hi idx vals s acc p g = Some r,
    r.1.1.1 + multiexp [seq x.1 | x <- r.2] r.1.2 = acc.1 + multiexp [seq x.1 | x <- g] p
       + \sum_(iv <- zip idx vals | (iv.1 < hi)%N) nth 0 s (iv.1 - lo) *: iv.2.1 &
    r.1.1.2 + multiexp [seq x.2 | x <- r.2] r.1.2 = acc.2 + multiexp [seq x.2 | x <- g] p
       + \sum_(iv <- zip idx vals | (iv.1 < hi)%N) nth 0 s (iv.1 - lo) *: iv.2.2].
Proof.
move=> so sv hlo hs.
elim: idx vals acc p g so sv hlo => [|i idx IH] [|x vals] //= acc p g so sv hlo sg.
- by exists (acc, p, g); rewrite !big_nil !addr0.
- case: sv => sv; case/andP: hlo => hi0 hlo.
have so' : sorted ltn idx by apply: path_sorted so.
case: ifP => [lhi|nhi]; last first.
  have h0 (iv : nat * (T1 * T2)) : (iv.1 < hi)%N && (iv \in zip idx vals) -> false.
    move=> /andP[h /(map_f fst)]; rewrite -/(unzip1 _) unzip1_zip ?sv // => hin.
    have := order_path_min ltn_trans so => /allP /(_ _ hin) h2.
    by move: nhi; rewrite (ltn_trans h2 h).
  by exists (acc, p, g); rewrite !big_cons /= nhi !big1_seq ?addr0 // => iv /h0.
rewrite !big_cons /= lhi (vgetE 0) (_ : (i - lo < size s)%N) /=; last by slia.
case: eqP => [->|_]; first by have [r [h1 h2 h3]] := IH vals acc p g so' sv hlo sg; exists r; rewrite !scale0r !add0r.
case: eqP => [->|_].
  have [r [h1 h2 h3]] := IH vals (acc.1 + x.1, acc.2 + x.2) p g so' sv hlo sg; exists r.
  by split; rewrite ?h2 ?h3 //= scale1r -!addrA; congr (_ + _); rewrite addrCA.
have [|r [h1 h2 h3]] := IH vals acc (rcons p (nth 0 s (i - lo))) (rcons g x) so' sv hlo.
  by rewrite !size_rcons sg.
exists r; split; rewrite ?h2 ?h3 // map_rcons multiexp_rcons ?size_map // !addrA //.
Qed.

Lemma sorted_drop (l : seq nat) k : sorted ltn l -> sorted ltn (drop k l).
Proof. exact: drop_sorted. Qed.

Lemma kc_multiexpE (vec : kc_vector T1 T2) lo hi s : kc_ok vec -> (hi <= lo + size s)%N ->
  kc_multiexp_with_mixed_addition vec lo hi s =
  Some (\sum_(iv <- zip (kv_indices vec) (kv_values vec) | (lo <= iv.1 < hi)%N) nth 0 s (iv.1 - lo) *: iv.2.1,
        \sum_(iv <- zip (kv_indices vec) (kv_values vec) | (lo <= iv.1 < hi)%N) nth 0 s (iv.1 - lo) *: iv.2.2).
Proof.
move=> /andP[so /eqP sv] hs /=; rewrite /kc_multiexp_with_mixed_addition.
set k := lower_bound _ _; move: so sv; set idx := kv_indices vec; set vals := kv_values vec => so sv.
have lk : (k <= size idx)%N by apply: find_size.
have hlo : all (fun i => lo <= i)%N (drop k idx).
  case: (leqP (size idx) k) => [h|h]; first by rewrite drop_oversize.
  have hk : (lo <= nth 0 idx k)%N by apply: (@nth_find _ 0%N (fun i => lo <= i)%N); rewrite has_find.
  have := sorted_drop k so; rewrite (drop_nth 0%N h) /= => hp; rewrite hk /=.
  have := order_path_min ltn_trans hp => /allP hall; apply/allP => i /hall h2.
  by rewrite (leq_trans hk) // ltnW.
have [||r [-> h2 h3]] := @kc_loopP lo hi (drop k idx) (drop k vals) s (0, 0) [::] [::] _ _ hlo hs erefl.
- exact: sorted_drop.
- by rewrite !size_drop sv.
have hsum (V : lmodType F) (f : nat * (T1 * T2) -> V) :
   \sum_(iv <- zip idx vals | (lo <= iv.1 < hi)%N) f iv
   = \sum_(iv <- zip (drop k idx) (drop k vals) | (iv.1 < hi)%N) f iv.
  rewrite -{1}(cat_take_drop k idx) -{1}(cat_take_drop k vals) zip_cat ?size_take ?sv //.
  rewrite big_cat /= big1_seq ?add0r.
    rewrite big_seq_cond [RHS]big_seq_cond; apply: eq_bigl => iv.
    case: (boolP (iv \in _)) => //= /(map_f fst); rewrite -/(unzip1 _) unzip1_zip ?size_drop ?sv // => hin.
    by rewrite (allP hlo _ hin).
  move=> iv /andP[/andP[h _] /(map_f fst)]; rewrite -/(unzip1 _) unzip1_zip ?size_take ?sv //.
  case/(nthP 0%N) => j; rewrite size_take_min => hj; rewrite nth_take; last by rewrite (leq_trans hj) // geq_minl.
  move=> ej; have := @before_find _ 0%N (fun i => lo <= i)%N idx j.
  by rewrite -/(lower_bound idx lo) -/k (leq_trans hj) ?geq_minl // ej h => /(_ isT).
case: r h2 h3 => [[[a1 a2] p] g] /= -> ->; rewrite !hsum !add0r //.
Qed.

Lemma kc_support_ok v : sorted ltn (kc_support v).
Proof. by apply: sorted_filter; [exact: ltn_trans | exact: iota_ltn_sorted]. Qed.

(** The whole computation: an inner product. *)
Lemma kc_multiexp_batch (b1 : T1) (b2 : T2) c1 c2 v chunks lo hi s : (hi <= lo + size s)%N -> (hi <= size v)%N ->
  obnd (kc_batch_exp b1 b2 c1 c2 v chunks) (fun vec => kc_multiexp_with_mixed_addition vec lo hi s)
  = Some ((c1 * \sum_(lo <= i < hi) nth 0 v i * nth 0 s (i - lo)) *: b1,
          (c2 * \sum_(lo <= i < hi) nth 0 v i * nth 0 s (i - lo)) *: b2).
Proof.
move=> hs hv; rewrite kc_batch_expE /= kc_multiexpE //; last by rewrite /kc_ok kc_support_ok size_map eqxx.
have key (V : lmodType F) (b : V) c (f : nat * (T1 * T2) -> V) :
   (forall i, f (i, kc_entry b1 b2 c1 c2 v i) = (c * nth 0 v i) *: b) ->
   \sum_(iv <- zip (kc_support v) [seq kc_entry b1 b2 c1 c2 v i | i <- kc_support v] | (lo <= iv.1 < hi)%N)
      nth 0 s (iv.1 - lo) *: f iv = (c * \sum_(lo <= i < hi) nth 0 v i * nth 0 s (i - lo)) *: b.
  move=> hf.
  have -> : zip (kc_support v) [seq kc_entry b1 b2 c1 c2 v i | i <- kc_support v]
     = [seq (i, kc_entry b1 b2 c1 c2 v i) | i <- kc_support v].
    by elim: (kc_support v) => //= i l ->.
  rewrite big_map /= /kc_support big_filter_cond mulr_sumr scaler_suml.
  have -> : forall h : nat -> V, \sum_(lo <= i < hi) h i = \sum_(i <- iota 0 (size v) | (lo <= i < hi)%N) h i.
    move=> h; rewrite (big_nat_widen _ _ _ _ _ hv) (big_nat_widenl _ 0) // /index_iota subn0.
    by apply: eq_bigl => i; rewrite andbC.
  rewrite big_mkcond [RHS]big_mkcond /=; apply: eq_bigr => i _.
  rewrite andbC; case: (lo <= i < hi)%N => //=; case: eqP => [->|_] /=; first by rewrite mul0r mulr0 scale0r.
  by rewrite hf scalerA; congr (_ *: _); rewrite mulrC -mulrA.
by rewrite (@key _ b1 c1 (fun iv => iv.2.1)) // (@key _ b2 c2 (fun iv => iv.2.2)).
Qed.
End Kc.
