(** Proximity along the rounds of FRI. *)
From mathcomp Require Import all_ssreflect all_algebra.
From Verif.Model Require Import Base OrderedMap Domain PolysEvaluator Fri Kzg.
From Verif.Spec Require Import FriSpec ProximitySpec.
From Verif.Proofs Require Import NatTac FieldTac PermProofs KzgProofs DomainProofs FriFold Proximity.
Set Implicit Arguments.
Unset Strict Implicit.
Unset Printing Implicit Defensive.
Import GRing.Theory.
Local Open Scope ring_scope.

Section Chain.
Variable F : fieldType.
Variable unity_root : nat -> F.
Variables (K B E : nat).
Hypothesis roots : roots_ok unity_root K.
Hypothesis two : (2%:R : F) != 0.
Notation dom j := (make_domain unity_root (2 ^ j)).
Notation ur j := (unity_root (2 ^ j)).
Notation Bd j := (B %/ 2 ^ (K - j))%N.
Notation Ed j := (E %/ 2 ^ (K - j))%N.
Notation hidden f := (hides_errors unity_root f.1 (Bd f.1) (Ed f.1) f.2.1 f.2.2).

(** The bounds on the next smaller domain *)
Lemma bound_next C j : (j < K)%N -> (2 * (C %/ 2 ^ (K - j)) <= C %/ 2 ^ (K - j.+1))%N.
Proof.
move=> hj; have -> : (K - j = (K - j.+1).+1)%N by rewrite subnSK.
by rewrite expnS mulnC [(2 * 2 ^ _)%N]mulnC divnMA leq_trunc_div.
Qed.
Lemma size_iota_mod (Y : seq nat) n m : uniq Y -> all (fun i => i < m)%N Y -> (0 < m)%N ->
  size [seq i <- iota 0 (n * m) | (i %% m)%N \in Y] = (n * size Y)%N.
Proof.
move=> uY hY hm; rewrite size_filter; elim: n => [|n ih]; first by [].
rewrite mulSn addnC iotaD count_cat ih mulSn addnC; congr (_ + _)%N; rewrite add0n.
rewrite -[(n * m)%N]addn0 iotaDl count_map -(size_iota 0 m).
rewrite size_iota (@eq_in_count _ _ (mem Y)); last first.
  by move=> i; rewrite mem_iota => /= hi; rewrite modnMDl modn_small.
rewrite -size_filter; apply/eqP; rewrite eq_sym; apply/eqP/perm_size/uniq_perm => //; first by apply: filter_uniq; apply: iota_uniq.
by move=> i; rewrite mem_filter mem_iota /=; case hi: (i \in Y) => //=; rewrite (allP hY).
Qed.

(** Polynomials that agree with a vector at given points *)
Lemma explain_dec (D v : seq F) (T : seq nat) b : uniq D -> uniq T -> all (fun i => i < size D)%N T ->
  (exists2 p : {poly F}, (size p <= b)%N & forall i, i \in T -> nth 0 v i = p.[nth 0 D i]) \/
  (forall p : {poly F}, (size p <= b)%N -> exists2 i, i \in T & nth 0 v i <> p.[nth 0 D i]).
Proof.
move=> uD uT hT; pose xs := [seq nth 0 D i | i <- take b T]; pose ys := [seq nth 0 v i | i <- take b T].
have uxs : uniq xs.
  rewrite map_inj_in_uniq ?take_uniq // => i j /mem_take/(allP hT) hi /mem_take/(allP hT) hj /eqP; by rewrite nth_uniq // => /eqP.
pose p0 := lagrange_interpolation (zip xs ys).
have sxy : size xs = size ys by rewrite !size_map.
have s0 : (size p0 <= b)%N by apply: leq_trans (lagrange_size _) _; rewrite size1_zip ?sxy // size_map size_take; case: ltnP.
have at0 : forall i, i \in take b T -> p0.[nth 0 D i] = nth 0 v i.
  move=> i hi; have hx : (index i (take b T) < size xs)%N by rewrite size_map index_mem.
  have := lagrange_at uxs sxy hx; rewrite /p0 !(nth_map 0%N) ?index_mem // nth_index //.
case h: (all (fun i => nth 0 v i == p0.[nth 0 D i]) T).
  by left; exists p0 => // i hi; apply/eqP/(allP h).
right=> p sp; case h2: (all (fun i => nth 0 v i == p.[nth 0 D i]) T); last first.
  by move/allPn: (negbT h2) => [i hi /eqP hne]; exists i.
exfalso; move/negP: h; apply; case: (leqP (size T) b) => hb.
  by apply/allP => i hi; rewrite at0 // take_oversize.
have -> : p0 = p; last by [].
apply: (@poly_eq_on _ b _ _ xs) => //; first by rewrite size_map size_takel // ltnW.
by move=> x /mapP[i hi ->]; rewrite at0 //; apply/eqP; apply: (allP h2); apply: mem_take hi.
Qed.

(** Several foldings of one vector *)
Lemma chain_many (alphas : seq F) : forall j v (Y : seq nat) (q : {poly F}), (size alphas <= j)%N -> (j <= K)%N ->
  let j' := (j - size alphas)%N in
  uniq Y -> all (fun i => i < 2 ^ j')%N Y -> (2 ^ j' <= size Y + Ed j')%N -> (size q <= Bd j')%N ->
  (forall i, i \in Y -> nth 0 (folded_many unity_root j alphas v) i = q.[ur j' ^+ i]) ->
  (exists2 f, f \in foldings_of unity_root j alphas v & hidden f) \/
  (exists2 p : {poly F}, (size p <= Bd j)%N & forall i, (i < 2 ^ j)%N -> (i %% 2 ^ j')%N \in Y -> nth 0 v i = p.[ur j ^+ i]).
Proof.
elim: alphas => [|a alphas ih] j v Y q hs hj j'; rewrite {}/j'.
  by rewrite subn0 => uY hY sY sq h; right; exists q => // i hi; rewrite modn_small //; apply: h.
case: j hs hj => // j hs hj; rewrite [size (a :: _)]/= subSS => uY hY sY sq h.
case: (ih j (folded unity_root j a v) Y q hs (ltnW hj) uY hY sY sq h) => [[f hf hh]|[p' sp' hp']].
  by left; exists f; rewrite // inE hf orbT.
pose j' := (j - size alphas)%N; pose T := agreement (dom j) (folded unity_root j a v) p'.
have T_lt : forall i, i \in T -> (i < 2 ^ j)%N by move=> i; rewrite mem_filter mem_iota size_dom => /andP[_].
have T_in : forall i, (i < 2 ^ j)%N -> nth 0 (folded unity_root j a v) i = p'.[ur j ^+ i] -> i \in T.
  by move=> i hi e; rewrite mem_filter mem_iota size_dom nth_dom // e eqxx hi.
pose T2 := T ++ [seq (i + 2 ^ j)%N | i <- T].
have e2 : (2 ^ j.+1 = 2 ^ j + 2 ^ j)%N by rewrite expnS mul2n addnn.
have uT : uniq T by rewrite filter_uniq // iota_uniq.
have uT2 : uniq T2.
  rewrite cat_uniq uT map_inj_uniq ?uT ?andbT //; last exact: addIn.
  by apply/hasPn => x /mapP[i hi ->]; apply/negP => /T_lt; rewrite ltnNge leq_addl.
have T2_lt : all (fun i => i < size (dom j.+1))%N T2.
  rewrite size_dom e2; apply/allP => i; rewrite mem_cat => /orP[/T_lt h1|/mapP[i' /T_lt h1 ->]]; last by rewrite ltn_add2r.
  by rewrite (leq_trans h1) ?leq_addr.
case: (explain_dec v (Bd j.+1) (uniq_dom roots hj) uT2 T2_lt) => [[p sp hp]|hno].
  right; exists p => // i hi hiY.
  have him : (i %% 2 ^ j < 2 ^ j)%N by rewrite ltn_pmod // expn_gt0.
  have hT : (i %% 2 ^ j)%N \in T.
    apply: T_in => //; apply: hp' => //.
    by rewrite modn_dvdm // dvdn_exp2l // leq_subr.
  have hT2 : i \in T2.
    rewrite mem_cat; case: (ltnP i (2 ^ j)) => hlt; first by rewrite modn_small in hT; rewrite ?hT.
    apply/orP; right; apply/mapP; exists (i %% 2 ^ j)%N => //.
    have hlt2 : (i - 2 ^ j < 2 ^ j)%N by rewrite ltn_subLR // -e2.
    by rewrite -{2}(subnK hlt) modnDr modn_small // subnK.
  by rewrite hp // nth_dom.
left; exists (j, (v, a)); first by rewrite mem_head.
exists p'; split=> //=.
- rewrite -/T; apply: leq_trans (_ : size [seq i <- iota 0 (2 ^ size alphas * 2 ^ j') | (i %% 2 ^ j')%N \in Y] + Ed j <= _)%N; last first.
    rewrite leq_add2r; apply: uniq_leq_size; first by rewrite filter_uniq // iota_uniq.
    have e3 : (2 ^ size alphas * 2 ^ j' = 2 ^ j)%N by rewrite -expnD subnKC.
    move=> i; rewrite e3 mem_filter mem_iota => /andP[hiY hi].
    by apply: T_in => //; apply: hp'.
  rewrite size_iota_mod // ?expn_gt0 //.
  have e3 : (2 ^ j = 2 ^ size alphas * 2 ^ j')%N by rewrite -expnD subnKC.
  rewrite {1}e3; apply: leq_trans (_ : 2 ^ size alphas * (size Y + Ed j') <= _)%N; first by rewrite leq_mul2l sY orbT.
  rewrite mulnDr leq_add2l; have -> : (K - j' = size alphas + (K - j))%N by rewrite /j' subnBA // addnC addnBA // ltnW.
  by rewrite expnD mulnC [(2 ^ size alphas * _)%N]mulnC divnMA leq_trunc_div.
move=> p sp; have [|i hi hne] := hno p; first by apply: leq_trans sp _; apply: bound_next.
move: hi; rewrite mem_cat => /orP[hi|/mapP[i' hi ei]]; [exists i|exists i'] => // -[h1 h2]; apply: hne => //.
by rewrite ei.
Qed.
(** All rounds *)
Lemma size_mods (X : seq nat) m n : (0 < m)%N -> uniq X -> all (fun i => i < n * m)%N X ->
  (size X <= n * size (undup [seq (i %% m)%N | i <- X]))%N.
Proof.
move=> hm uX hX; rewrite -(@size_iota_mod _ n m) ?undup_uniq //; last first.
  by apply/allP => i; rewrite mem_undup => /mapP[x _ ->]; rewrite ltn_pmod.
apply: uniq_leq_size => // i hi; rewrite mem_filter mem_iota /= add0n (allP hX _ hi) andbT mem_undup.
by apply/mapP; exists i.
Qed.
Lemma chain_rounds (final : {poly F}) sl : forall ws alphas j (X : seq nat), sl != [::] -> (sumn sl <= j)%N -> (j <= K)%N ->
  size alphas = sumn sl -> uniq X -> all (fun i => i < 2 ^ j)%N X -> (2 ^ j <= size X + Ed j)%N ->
  (size final <= Bd (j - sumn sl))%N -> (forall i, i \in X -> consistent_at unity_root final j sl alphas ws i) ->
  (exists2 f, f \in foldings unity_root j sl alphas ws & hidden f) \/
  (exists2 p : {poly F}, (size p <= Bd j)%N & forall i, (i < 2 ^ j)%N ->
    (i %% 2 ^ (j - head 0%N sl))%N \in [seq (x %% 2 ^ (j - head 0%N sl))%N | x <- X] -> nth 0 (head [::] ws) i = p.[ur j ^+ i]).
Proof.
elim: sl => [|step sl ih] ws alphas j X // _ hs hj sa uX hX sX sf hc.
case: ws hc => [|w ws] hc.
  case: X uX hX sX hc => [|x X] uX hX sX hc; first by right; exists 0; rewrite ?size_poly0.
  by case: (hc x); rewrite mem_head.
rewrite [head 0%N _]/= [head [::] _]/= [foldings _ _ _ _ _]/=.
move: hs sa sf; rewrite [sumn _]/= => hs sa sf.
have hst : (step <= j)%N by apply: leq_trans hs; rewrite leq_addr.
pose j' := (j - step)%N; pose Z := undup [seq (x %% 2 ^ j')%N | x <- X].
have hj' : (j' <= K)%N by apply: leq_trans hj; rewrite leq_subr.
have e2 : (2 ^ j = 2 ^ step * 2 ^ j')%N by rewrite -expnD subnKC.
have uZ : uniq Z by apply: undup_uniq.
have hZ : all (fun i => i < 2 ^ j')%N Z.
  by apply/allP => i; rewrite mem_undup => /mapP[x _ ->]; rewrite ltn_pmod // expn_gt0.
have eE : Ed j' = (Ed j %/ 2 ^ step)%N.
  by rewrite -divnMA -expnD addnBAC // /j' subnBA.
have sZ : (2 ^ j' <= size Z + Ed j')%N.
  have h1 : (size X <= 2 ^ step * size Z)%N by apply: size_mods => //; rewrite ?expn_gt0 // -e2.
  have h2 : (2 ^ step * 2 ^ j' <= 2 ^ step * size Z + Ed j)%N by rewrite -e2 (leq_trans sX) // leq_add2r.
  rewrite eE; rewrite -leq_subLR in h2; rewrite -leq_subLR leq_divRL ?expn_gt0 // mulnC mulnBr //.
have st : size (take step alphas) = step by rewrite size_takel // sa leq_addr.
pose nextv (ws : seq (seq F)) z := if ws is w' :: _ then nth 0 w' z else final.[ur j' ^+ z].
have hcz : forall z, z \in Z -> nth 0 (folded_many unity_root j (take step alphas) w) z = nextv ws z /\
    consistent_at unity_root final j' sl (drop step alphas) ws z.
  by move=> z; rewrite mem_undup => /mapP[x /hc /= [h1 h2] ->].
have done_ : (exists2 q : {poly F}, (size q <= Bd j')%N & forall z, z \in Z -> nextv ws z = q.[ur j' ^+ z]) ->
  (exists2 f, f \in foldings_of unity_root j (take step alphas) w ++ foldings unity_root j' sl (drop step alphas) ws & hidden f) \/
  (exists2 p : {poly F}, (size p <= Bd j)%N & forall i, (i < 2 ^ j)%N ->
    (i %% 2 ^ j')%N \in [seq (x %% 2 ^ j')%N | x <- X] -> nth 0 w i = p.[ur j ^+ i]).
  case=> q sq hq; have := @chain_many (take step alphas) j w Z q; rewrite st => /(_ hst hj uZ hZ sZ sq).
  case=> [z hz|[f hf hh]|[p sp hp]].
  - by have [-> _] := hcz z hz; apply: hq.
  - by left; exists f; rewrite // mem_cat hf.
  by right; exists p => // i hi hx; apply: hp => //; rewrite mem_undup.
case: sl ih hs sa sf hcz hc done_ => [|s2 sl] ih hs sa sf hcz hc done_.
  apply: done_; exists final; first by move: sf; rewrite addn0.
  by move=> z hz; have [_] := hcz z hz; case: (ws).
case: (ih ws (drop step alphas) j' Z) => //.
- by rewrite leq_subRL // hs.
- by rewrite size_drop sa addKn.
- by rewrite -subnDA.
- by move=> z /hcz[].
- by case=> f hf hh; left; exists f; rewrite // mem_cat hf orbT.
case=> q sq hq; apply: done_; case: ws hc hcz ih hq => [|w' ws] hc hcz ih hq.
  by exists 0; rewrite ?size_poly0 // => z /hcz[_].
exists q => // z hz; apply: hq; first exact: (allP hZ).
by apply/mapP; exists z.
Qed.
End Chain.
