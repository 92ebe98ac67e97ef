(** Counting the challenges that hide errors, against adaptive strategies. *)
From mathcomp Require Import all_ssreflect all_algebra.
From Verif.Model Require Import Base OrderedMap Domain Fri.
From Verif.Spec Require Import FriSpec ProximitySpec.
From Verif.Proofs Require Import NatTac FieldTac PermProofs DomainProofs FriFold Proximity ProximityChain.
Set Implicit Arguments.
Unset Strict Implicit.
Unset Printing Implicit Defensive.
Import GRing.Theory.
Local Open Scope ring_scope.

Section Lists.
Variable A : eqType.
Fixpoint lists (s : seq A) (n : nat) : seq (seq A) := if n is n'.+1 then [seq a :: l | a <- s, l <- lists s n'] else [:: [::]].
Lemma size_lists s n : size (lists s n) = (size s ^ n)%N.
Proof. by elim: n => //= n ih; rewrite size_allpairs ih expnS. Qed.
Lemma mem_lists s n l : size l = n -> {subset l <= s} -> l \in lists s n.
Proof.
elim: n l => [|n ih] [|a l] //= [hl] hs; apply: allpairs_f; first by apply: hs; rewrite mem_head.
by apply: ih => // x hx; apply: hs; rewrite inE hx orbT.
Qed.
Lemma choose (Q : A -> nat -> Prop) n (s : seq A) : (forall a, a \in s -> exists2 t, (t < n)%N & Q a t) ->
  exists f : A -> nat, forall a, a \in s -> (f a < n)%N /\ Q a (f a).
Proof.
elim: s => [|a s ih] h; first by exists (fun _ => 0%N).
have [f hf] := ih (fun x hx => h x (mem_behead (s := a :: s) hx)); have [t ht hq] := h a (mem_head _ _).
exists (fun x => if x == a then t else f x) => x; case: eqP => [-> //|ne]; rewrite inE => /orP[/eqP //|]; exact: hf.
Qed.
Definition remove (t : nat) (l : seq A) := take t l ++ drop t.+1 l.
Lemma remove_take t (l l' : seq A) : (t <= size l)%N -> (t <= size l')%N -> remove t l = remove t l' -> take t l = take t l'.
Proof. by move=> h h' /(congr1 (take t)); rewrite !take_size_cat ?size_takel. Qed.
Lemma remove_inj d t (l l' : seq A) : size l = size l' -> (t < size l)%N -> remove t l = remove t l' -> nth d l t = nth d l' t -> l = l'.
Proof.
move=> es h er en; have h' : (t < size l')%N by rewrite -es.
have et := remove_take (ltnW h) (ltnW h') er.
rewrite -(cat_take_drop t l) -(cat_take_drop t l') (drop_nth d h) (drop_nth d h') en et; congr (_ ++ _ :: _).
by have := congr1 (drop t) er; rewrite !drop_size_cat ?size_takel // ltnW.
Qed.
End Lists.

Section Strategy.
Variable F : fieldType.
Variable unity_root : nat -> F.
Notation d0 := (0%N, ([::], 0 : F)).
Lemma size_foldings_of alphas : forall j v, size (foldings_of unity_root j alphas v) = size alphas.
Proof. by elim: alphas => //= a alphas ih j v; rewrite ih. Qed.
Lemma nth_foldings_of alphas : forall j v t, (t < size alphas)%N ->
  nth d0 (foldings_of unity_root j alphas v) t = ((j - t.+1)%N, (folded_many unity_root j (take t alphas) v, nth 0 alphas t)).
Proof.
elim: alphas => //= a alphas ih j v [_|t ht]; first by rewrite subn1.
by rewrite /= ih // -subn1 -subnDA.
Qed.
Lemma size_foldings strat sl : forall K before alphas, size alphas = sumn sl ->
  size (foldings unity_root K sl alphas (strategy_vectors strat sl before alphas)) = sumn sl.
Proof.
elim: sl => //= step sl ih K before alphas sa.
have st : size (take step alphas) = step by rewrite size_takel // sa leq_addr.
by rewrite size_cat size_foldings_of st ih // size_drop sa addKn.
Qed.
Lemma nth_foldings strat sl : forall K before alphas alphas' t, size alphas = sumn sl -> size alphas' = sumn sl -> (t < sumn sl)%N ->
  take t alphas = take t alphas' ->
  let f al := nth d0 (foldings unity_root K sl al (strategy_vectors strat sl before al)) t in
  [/\ (f alphas).1 = (K - t.+1)%N, (f alphas).2.1 = (f alphas').2.1 & (f alphas).2.2 = nth 0 alphas t].
Proof.
elim: sl => [|step sl ih] K before alphas alphas' t; first by rewrite ltn0.
rewrite [sumn _]/= => sa sa' ht et; cbn [foldings strategy_vectors].
have st : size (take step alphas) = step by rewrite size_takel // sa leq_addr.
have st' : size (take step alphas') = step by rewrite size_takel // sa' leq_addr.
rewrite !nth_cat !size_foldings_of st st'; case: ltnP => hlt.
  rewrite !nth_foldings_of ?st ?st' //= nth_take //; split=> //.
  by rewrite !take_take ?(ltnW hlt) // et.
have et2 : take step alphas = take step alphas' by rewrite -(take_take hlt alphas) et take_take.
rewrite et2; have [|||| h1 h2 h3] := ih (K - step)%N (before ++ take step alphas') (drop step alphas) (drop step alphas') (t - step)%N.
- by rewrite size_drop sa addKn.
- by rewrite size_drop sa' addKn.
- by rewrite ltn_subLR.
- by rewrite !take_drop subnK // et.
split=> //; first by rewrite h1 -subnDA addnS subnKC.
by rewrite h3 nth_drop subnKC.
Qed.

Lemma hides_few_at K B E j v (alphas : seq F) : roots_ok unity_root K -> (2%:R : F) != 0 -> (3 * E + B <= 2 ^ K)%N -> (j < K)%N ->
  uniq alphas -> (forall alpha, alpha \in alphas -> hides_errors unity_root j (B %/ 2 ^ (K - j)) (E %/ 2 ^ (K - j)) v alpha) ->
  (size alphas <= (2 * (E %/ 2 ^ (K - j))).+1)%N.
Proof.
move=> ro two h hj; apply: (hides_few ro two hj).
have e : (2 ^ K = 2 ^ j * 2 ^ (K - j))%N by rewrite -expnD subnKC // ltnW.
rewrite -(leq_pmul2r (_ : 0 < 2 ^ (K - j))%N) ?expn_gt0 // -e mulnDl -mulnA; apply: leq_trans h.
by apply: leq_add; rewrite ?leq_mul2l ?leq_trunc_div.
Qed.
Lemma strategy_few K B E sl strat (A : seq F) (S : seq (seq F)) : roots_ok unity_root K -> (2%:R : F) != 0 ->
  (3 * E + B <= 2 ^ K)%N -> (sumn sl <= K)%N -> uniq S ->
  (forall al, al \in S -> [/\ size al = sumn sl, {subset al <= A} &
    errors_hidden unity_root K B E sl al (strategy_vectors strat sl [::] al)]) ->
  (size S <= sumn sl * E.+1 * size A ^ (sumn sl).-1)%N.
Proof.
move=> ro two hE hs uS hS.
pose f al t := nth d0 (foldings unity_root K sl al (strategy_vectors strat sl [::] al)) t.
pose H x := hides_errors unity_root x.1 (B %/ 2 ^ (K - x.1)) (E %/ 2 ^ (K - x.1)) x.2.1 x.2.2.
have [g hg] : exists g : seq F -> nat, forall al, al \in S -> (g al < sumn sl)%N /\ H (f al (g al)).
  apply: (@choose _ (fun al t => H (f al t))) => al /hS[sa _ [x hx hh]].
  exists (index x (foldings unity_root K sl al (strategy_vectors strat sl [::] al))).
    by rewrite -(size_foldings strat K [::] sa) index_mem.
  by rewrite /f nth_index.
pose S' := [seq (t, o) | t <- iota 0 (sumn sl), o <- lists A (sumn sl).-1].
have sS' : size S' = (sumn sl * size A ^ (sumn sl).-1)%N by rewrite size_allpairs size_iota size_lists.
rewrite mulnAC mulnC -sS'; apply: (@pigeons _ _ E.+1 (fun al x => (g al == x.1) && (remove x.1 al == x.2))).
  move=> al hal; have [h1 h2] := hg _ hal; have [sa ss _] := hS _ hal.
  exists (g al, remove (g al) al); last by rewrite /= !eqxx.
  apply: allpairs_f; first by rewrite mem_iota.
  apply: mem_lists; last by move=> x; rewrite mem_cat => /orP[/mem_take|/mem_drop]; apply: ss.
  rewrite size_cat size_takel ?size_drop ?sa ?(ltnW h1) //.
  by case: (sumn sl) h1 => // n h1; rewrite subSS subnKC.
move=> [t o] /allpairsP[[t' o'] /= [ht _ [-> ->]]]; move: ht; rewrite mem_iota => /= ht.
set R := [seq _ <- S | _].
have hR : forall al, al \in R -> [/\ al \in S, size al = sumn sl, remove t' al = o' & H (f al t')].
  move=> al; rewrite mem_filter => /andP[/andP[/eqP e1 /eqP e2] h3]; have [_ h4] := hg _ h3; have [h5 _ _] := hS _ h3.
  by split=> //; rewrite -e1.
have uR : uniq R by apply: filter_uniq.
rewrite -(size_map (fun al => nth 0 al t')).
case E1: R => [|al0 R'] //; have hal0 : al0 \in R by rewrite E1 mem_head.
rewrite -E1; have [_ s0 r0 _] := hR _ hal0.
have hj : (K - t'.+1 < K)%N by rewrite ltn_subrL /= (leq_ltn_trans _ (leq_trans ht hs)).
have ek : (K - (K - t'.+1) = t'.+1)%N by rewrite subKn // (leq_trans ht).
apply: leq_trans (_ : (2 * (E %/ 2 ^ t'.+1)).+1 <= _)%N; last first.
  by rewrite ltnS expnSr divnMA mulnC (leq_trans (leq_trunc_div _ _)) // leq_div.
have el : forall al, al \in R -> [/\ (f al t').1 = (K - t'.+1)%N, (f al t').2.1 = (f al0 t').2.1 & (f al t').2.2 = nth 0 al t'].
  move=> al hal; have [_ sa ra _] := hR _ hal; apply: nth_foldings => //.
  by apply: remove_take; rewrite ?sa ?s0 ?ra ?r0 // ltnW.
rewrite -{1}ek; apply: (hides_few_at (v := (f al0 t').2.1) ro two hE hj).
  rewrite map_inj_in_uniq // => al al' hal hal' en; have [_ sa ra _] := hR _ hal; have [_ sa' ra' _] := hR _ hal'.
  by apply: (@remove_inj _ 0 t') => //; rewrite ?sa ?sa' ?ra ?ra'.
move=> alpha /mapP[al hal ->]; have [_ _ _] := hR _ hal; have [e1 e2 e3] := el _ hal.
by rewrite /H e1 e2 e3.
Qed.
End Strategy.
