(** C37: the leaf layout of FRI. *)
From mathcomp Require Import all_ssreflect all_algebra.
From Verif.Model Require Import Base OrderedMap Domain FoldPolynomial MerkleTree Quotient Fri.
From Verif.Spec Require Import FriSpec.
From Verif.Proofs Require Import NatTac FieldTac PermProofs KzgProofs PackingProofs MerkleProofs DomainProofs FriIndex FriLayout FriFold FriRounds.
Set Implicit Arguments.
Unset Strict Implicit.
Unset Printing Implicit Defensive.
Import GRing.Theory.
Local Open Scope ring_scope.

Section C37.
Variable F : fieldType.

(** What the prover opens for the values [v] of one polynomial: at each index of the coset, the value at the smaller and at
    the larger of the index and its opposite. *)
Definition opened (v : seq F) (n : nat) (idx : seq nat) : seq (F * F) :=
  [seq (nth 0 v (minn a (get_paired_index a n)), nth 0 v (maxn a (get_paired_index a n))) | a <- idx].
Lemma openedE v k m x : opened v (2 ^ k.+1) (row (2 ^ k.+1) m x) = rowvals v k m x.
Proof. by apply/eq_in_map => a ha; rewrite /pair_at pair_min ?pair_max //; apply: (allP (row_lt k m x)). Qed.

Lemma size_flatten_const (A B : Type) (f : A -> seq B) s c : (forall x, size (f x) = c) -> size (flatten [seq f x | x <- s]) = (size s * c)%N.
Proof. by move=> h; elim: s => //= x s ih; rewrite size_cat ih h mulSn. Qed.
Lemma uniq_row_mod k m x : (m <= k)%N -> uniq [seq (a %% 2 ^ k)%N | a <- row (2 ^ k.+1) m x].
Proof.
move=> hm; rewrite /row -map_comp map_inj_in_uniq ?uniq_offs // => a b; rewrite !mem_offs // => /andP[ha _] /andP[hb _] /=.
by rewrite !modn_dvdm ?dvdn_exp2l // => /eqP; rewrite eqn_modDl !modn_small // => /eqP.
Qed.

(** For every query index the opened pairs, put in the order that the verifier computes, are the leaf at the folded index of
    the tree that was committed; the order uses each opened pair exactly once. *)
Theorem C37_leaf (vs : seq (seq F)) k m x : let n := (2 ^ k.+1)%N in let step := m.+1 in
  all (fun v => size v == n) vs -> (step <= k.+1)%N -> (x < n)%N ->
  exists t idx order, [/\ precommit_values vs n step = Some t, coset_indices n step x = Some idx,
    get_correct_order x n step [seq (a, get_paired_index a n) | a <- idx] = Some order,
    perm_eq order (iota 0 (size idx)) &
    (get_folded_index x n step < size (tr_leaves t))%N /\
    omap flatten (omapM (ordered_values order) [seq opened v n idx | v <- vs]) =
      Some (nth [::] (tr_leaves t) (get_folded_index x n step))].
Proof.
move=> n step hv hm hx; rewrite /step ltnS in hm.
have [order [h1 h2 h3 h4]] := correct_orderE hm hx.
exists (leaf_tree vs k m), (row n m x), order; split=> //.
- by apply: precommit_valuesE.
- by apply: coset_indicesE.
- have uo : uniq order by apply: (@map_uniq _ _ (fun i => nth 0%N (row (2 ^ k.+1) m x) i %% 2 ^ k)%N); rewrite h4 uniq_row_mod.
  rewrite size_row; apply: uniq_perm; rewrite ?iota_uniq // => i; rewrite mem_iota /=; apply/idP/idP; first by apply: (allP h3).
  have sub : {subset order <= iota 0 (2 ^ m)} by move=> j hj; rewrite mem_iota; apply: (allP h3).
  have /(uniq_min_size uo sub)[_ h] : (size (iota 0 (2 ^ m)) <= size order)%N by rewrite size_iota h2.
  by rewrite h mem_iota.
rewrite folded_index // size_map size_iota; split; first by rewrite ltn_mod expn_gt0.
rewrite nth_leaf_tree ?ltn_mod ?expn_gt0 //; elim: (vs) => [|v vs' ih] //=.
rewrite openedE (ordered_valuesE _ h3 h4) /=; move: ih; by case: (omapM _ _) => //= s [->].
Qed.

(** Every value of the polynomial is in exactly one leaf, once. *)
Theorem C37_partition (v : seq F) k m : let n := (2 ^ k.+1)%N in let step := m.+1 in size v = n -> (step <= k.+1)%N ->
  exists2 t, precommit_values [:: v] n step = Some t & perm_eq (flatten (tr_leaves t)) v.
Proof.
move=> n step hv hm; rewrite /step ltnS in hm; exists (leaf_tree [:: v] k m); first by apply: precommit_valuesE => //=; rewrite hv eqxx.
pose I := flatten [seq flatten [seq [:: a; a + 2 ^ k]%N | a <- row n m x] | x <- iota 0 (2 ^ (k - m))].
have szI : size I = n.
  have h x : size (flatten [seq [:: a; a + 2 ^ k]%N | a <- row n m x]) = (2 ^ m * 2)%N by rewrite (size_flatten_const _ (c := 2)) ?size_row.
  by rewrite (size_flatten_const _ h) size_iota mulnA -expnD subnK // -expnSr.
have sub : {subset iota 0 n <= I}.
  move=> j; rewrite mem_iota /= add0n => hj.
  have hr : ((j %% 2 ^ k) \in [seq b %% 2 ^ k | b <- row n m (j %% 2 ^ (k - m))])%N.
    by rewrite mem_row // ltn_mod expn_gt0 /= modn_mod modn_dvdm // dvdn_exp2l // leq_subr.
  have hs : (j %% 2 ^ (k - m) < 2 ^ (k - m))%N by rewrite ltn_mod expn_gt0.
  apply/flatten_mapP; exists (j %% 2 ^ (k - m))%N; first by rewrite mem_iota.
  case/mapP: hr => b hb eb; have hb' := row_small hm hs hb; have {}eb : (j %% 2 ^ k)%N = b by rewrite eb modn_small.
  apply/flatten_mapP; exists b => //; rewrite !inE -eb.
  case: (pair_cases hj) => [[h1 [h2 _]]|[h1 [h2 _]]]; rewrite h2 ?eqxx // subnK ?eqxx ?orbT //.
have uI : uniq I by apply: (leq_size_uniq (iota_uniq 0 n) sub); rewrite szI size_iota.
have [|_ mI] := uniq_min_size (iota_uniq 0 n) sub; first by rewrite szI size_iota.
have pI : perm_eq I (iota 0 n) by apply: uniq_perm; rewrite ?iota_uniq.
have -> : flatten (tr_leaves (leaf_tree [:: v] k m)) = [seq nth 0 v i | i <- I].
  rewrite /I map_flatten -map_comp /leaf_tree /=; congr flatten; apply/eq_in_map => x; rewrite mem_iota /= add0n => hx.
  rewrite cats0 /flat /rowvals -map_comp map_flatten -map_comp; congr flatten; apply/eq_in_map => a ha /=.
  by rewrite modn_small // (row_small hm hx ha).
by rewrite (perm_trans (perm_map _ pI)) // -[X in perm_eq _ X](mkseq_nth 0) /mkseq hv.
Qed.

(** The coset of a query: the points opened for the index [x] are exactly the elements of the domain with the same power
    2^step as its element at [x], each once; the two points of a pair are opposite, and the folded index is the index of
    that power in the domain that remains after the step. *)
Theorem C37_coset (unity_root : nat -> F) k m x : let n := (2 ^ k.+1)%N in let step := m.+1 in let D := make_domain unity_root n in
  roots_ok unity_root k.+1 -> (step <= k.+1)%N -> (x < n)%N ->
  exists s pairs, [/\ calculate_s (nth 0 D x) x step D = Some (s, pairs),
    size s = (2 ^ m)%N /\ uniq (flatten [seq [:: e.1; e.2] | e <- s]),
    forall e, (e \in flatten [seq [:: e.1; e.2] | e <- s]) = (e \in D) && (e ^+ (2 ^ step) == nth 0 D x ^+ (2 ^ step)),
    {in s, forall e, e.2 = - e.1} &
    nth 0 (make_domain unity_root (2 ^ (k.+1 - step))) (get_folded_index x n step) = nth 0 D x ^+ (2 ^ step)].
Proof.
move=> n step D ro hm hx; rewrite /step ltnS in hm.
pose J := flatten [seq [:: a; get_paired_index a n] | a <- row n m x].
have gk : (2 ^ (k - m) %| 2 ^ k)%N by rewrite dvdn_exp2l // leq_subr.
have gn : (2 ^ (k - m) %| n)%N by rewrite dvdn_exp2l // (leq_trans (leq_subr _ _)).
have mJ j : (j \in J) = (j < n)%N && (j == x %[mod 2 ^ (k - m)])%N.
  have -> : (j \in J) = (j < n)%N && ((j %% 2 ^ k)%N \in [seq b %% 2 ^ k | b <- row n m x])%N.
    apply/idP/idP.
      case/flatten_mapP => a ha; have han := allP (row_lt k m x) a ha.
      rewrite !inE => /orP[/eqP->|/eqP->]; rewrite ?paired_lt; first by rewrite han; apply: map_f.
      apply/mapP; exists a => //; rewrite /get_paired_index n_half modn_dvdm ?dvdn_exp2l // modnDr //.
    case/andP=> hj /mapP[b hb eb]; have hbn := allP (row_lt k m x) b hb; apply/flatten_mapP; exists b => //; rewrite !inE.
    case: (pair_cases hj) eb => [[h1 [-> _]]|[h1 [-> _]]]; case: (pair_cases hbn) => [[h2 [-> ->]]|[h2 [-> ->]]] e.
    - by rewrite e eqxx.
    - by rewrite e eqxx orbT.
    - by rewrite -(subnK h1) e eqxx orbT.
    by rewrite -(subnK h1) e subnK // eqxx.
  by rewrite mem_row // ltn_mod expn_gt0 /= modn_dvdm.
have sJ : size J = (2 ^ m.+1)%N by rewrite (size_flatten_const _ (c := 2)) // size_row expnSr.
have uJ : uniq J.
  pose S := [seq (x %% 2 ^ (k - m) + 2 ^ (k - m) * i)%N | i <- iota 0 (2 ^ m.+1)].
  have uS : uniq S.
    rewrite map_inj_uniq ?iota_uniq // => a b /eqP; rewrite eqn_add2l eqn_pmul2l ?expn_gt0 // => /eqP //.
  apply: (@leq_size_uniq _ S J uS); last by rewrite sJ size_map size_iota.
  move=> j /mapP[i]; rewrite mem_iota /= add0n => hi ->; rewrite mJ addnC mulnC modnMDl modn_mod eqxx andbT.
  apply: (@leq_trans (2 ^ (k - m) * i.+1)); first by rewrite mulnSr mulnC ltn_add2l ltn_mod expn_gt0.
  by apply: (@leq_trans (2 ^ (k - m) * 2 ^ m.+1)); rewrite ?leq_mul2l ?hi ?orbT // -expnD addnS subnK.
have prim : n.-primitive_root (unity_root n) by exact: ro.1.
have eP : flatten [seq [:: e.1; e.2] | e <- points unity_root k.+1 m x] = [seq unity_root n ^+ j | j <- J].
  by rewrite /points /J map_flatten -!map_comp.
exists (points unity_root k.+1 m x), (ipairs k.+1 m x); split.
- by rewrite nth_dom // calculate_sE.
- split; first by rewrite size_map size_row.
  rewrite eP map_inj_in_uniq // => i j; rewrite !mJ => /andP[hi _] /andP[hj _] /eqP.
  by rewrite (eq_prim_root_expr prim) !modn_small // => /eqP.
- move=> e; rewrite eP; have key j : (j < n)%N -> (unity_root n ^+ j \in [seq unity_root n ^+ j | j <- J]) = (unity_root n ^+ j ^+ (2 ^ step) == nth 0 D x ^+ (2 ^ step)).
    move=> hj; rewrite nth_dom // -!exprM (eq_prim_root_expr prim).
    have -> : (j * 2 ^ step == x * 2 ^ step %[mod n])%N = (j == x %[mod 2 ^ (k - m)])%N.
      have -> : n = (2 ^ (k - m) * 2 ^ step)%N by rewrite -expnD addnS subnK.
      by rewrite -!muln_modl eqn_pmul2r ?expn_gt0.
    apply/mapP/idP => [[i hi ei]|h].
      move: (hi); rewrite mJ => /andP[hin hh]; suff -> : j = i by exact: hh.
      by have /eqP := ei; rewrite (eq_prim_root_expr prim) !modn_small // => /eqP.
    by exists j; rewrite // mJ hj.
  apply/idP/andP => [he|[/mapP[j]]].
    case/mapP: (he) => j; rewrite mJ => /andP[hj _] ee; move: he; rewrite ee key // => ->; split=> //.
    by apply: map_f; rewrite mem_iota.
  by rewrite mem_iota /= add0n => hj ->; rewrite key.
- move=> e /mapP[a ha ->] /=; have han := allP (row_lt k m x) a ha.
  case: (pair_cases han) => [[h1 [_ ->]]|[h1 [_ ->]]]; first exact: (ur_opp ro).
  by rewrite -{2}(subnK h1) (ur_opp ro) ?opprK.
have up i : (i <= k.+1)%N -> unity_root (2 ^ (k.+1 - i))%N = unity_root n ^+ (2 ^ i).
  elim: i => [|i ih] hi; first by rewrite subn0 expr1.
  by rewrite (ur_sq ro) ?ltn_subrL // -?subSn // subSS ih 1?ltnW // -exprM -expnSr.
rewrite folded_index // nth_dom ?subSS ?ltn_mod ?expn_gt0 // nth_dom // (ur_mod ro) ?(leq_trans (leq_subr _ _)) //.
by rewrite -subSS up // -!exprM mulnC.
Qed.
End C37.

(** A domain of eight points of the field of 17 elements, leaves of four values, the query index 5 *)
Section Witness.
Let F := [fieldType of 'F_17].
Definition C37_root (n : nat) : F := 3 ^+ (16 %/ n).
Definition C37_vs : seq (seq F) := [:: [:: 1; 2; 3; 4; 5; 6; 7; 8]; [:: 11; 12; 13; 14; 15; 16; 0; 1]].
Lemma C37_roots : roots_ok C37_root 3.
Proof.
split.
  apply/andP; split=> //; apply/forallP => -[i hi]; rewrite unity_rootE /=.
  by do 8 (case: i hi => [|i] hi; first vm_decide).
by case=> [|[|[|]]] // _; apply/eqP; vm_decide.
Qed.
Example C37_witness : [/\ roots_ok C37_root 3, all (fun v : seq F => size v == 8%N) C37_vs,
  coset_indices 8 2 5 = Some [:: 5; 7]%N /\ get_folded_index 5 8 2 = 1%N,
  get_correct_order 5 8 2 [seq (a, get_paired_index a 8) | a <- [:: 5; 7]%N] = Some [:: 0; 1]%N &
  get_correct_order 7 8 2 [seq (a, get_paired_index a 8) | a <- [:: 7; 1]%N] = Some [:: 1; 0]%N /\
  (omap (fun t => nth [::] (tr_leaves t) 1) (precommit_values C37_vs 8 2) == Some [:: 2; 6; 4; 8; 12; 16; 14; 1]) &&
  (omap flatten (omapM (ordered_values [:: 1; 0]%N) [seq opened v 8 [:: 7; 1]%N | v <- C37_vs]) == Some [:: 2; 6; 4; 8; 12; 16; 14; 1])].
Proof. split; [exact: C37_roots|by []|by []|by []|]. split; [by []|by vm_compute]. Qed.
End Witness.

Print Assumptions C37_leaf.
Print Assumptions C37_partition.
Print Assumptions C37_coset.
