(** Lemmas about the lookup argument of Model/LookupArgument.v. *)
From Coq Require Import NArith.
From mathcomp Require Import all_ssreflect all_algebra.
From Verif.Model Require Import Base HashMap OrderedMap Expression PlonkVariable PlonkTable PermutationArgument GatesArgument LookupArgument.
From Verif.Proofs Require Import NatTac KzgProofs PermProofs PermArgProofs.
Set Implicit Arguments.
Unset Strict Implicit.
Unset Printing Implicit Defensive.
Import GRing.Theory.
Local Open Scope ring_scope.

Section Parts.
Variable F : fieldType.
Implicit Types (gates : seq (lookup_gate F)) (tables : seq lookup_table).

(** the costs of the lookup constraints and of the lookup options *)
Definition costs gates tables : seq nat :=
  flatten [seq [seq (input_degree c).+1 | c <- lg_constraints g] | g <- gates] ++
  flatten [seq nseq (size (lt_lookup_options t)) 3%N | t <- tables].
Lemma lookup_partsE gates tables max : lookup_parts gates tables max =
  if max == 0%N then [:: sorted_lookup_columns_number gates tables] else
  let st := foldl (part_step max) ([::], 0, 0)%N (costs gates tables) in rcons st.1.1 st.2.
Proof.
rewrite /lookup_parts /costs foldl_cat; case: eqP => // _; set a := foldl _ _ gates.
have -> : a = foldl (part_step max) ([::], 0, 0)%N (flatten [seq [seq (input_degree c).+1 | c <- lg_constraints g] | g <- gates]).
  rewrite /a; elim: gates ([::], 0%N, 0%N) {a} => [|g gates ih] st //=; rewrite foldl_cat ih; congr foldl.
  by elim: (lg_constraints g) st => //= c cs ihc st; rewrite ihc.
suff -> st : foldl (fun st t => foldl (fun st _ => part_step max st 3) st (lt_lookup_options t)) st tables =
    foldl (part_step max) st (flatten [seq nseq (size (lt_lookup_options t)) 3%N | t <- tables]) by [].
elim: tables st => [|t tables ih] st //=; rewrite foldl_cat ih; congr foldl.
by elim: (lt_lookup_options t) st => //= o os iho st; rewrite iho.
Qed.
Lemma size_costs gates tables : size (costs gates tables) = (lookup_constraints_num gates + lookup_options_num tables)%N.
Proof.
rewrite size_cat !size_flatten /shape -!map_comp; congr (_ + _)%N; congr sumn; apply: eq_map => x /=.
  by rewrite size_map.
by rewrite size_nseq.
Qed.
(** invariant of the greedy packing: the parts so far split the costs so far *)
Lemma part_fold max (cs : seq nat) : let: (ps, chunk, part) := foldl (part_step max) ([::], 0, 0)%N cs in
  [/\ (sumn ps + part = size cs)%N, chunk = sumn (drop (sumn ps) cs) &
      (forall c, c \in cs -> c < max)%N -> [/\ (cs != [::] -> 0 < part)%N, (0 < max -> chunk < max)%N &
        forall x, x \in reshape ps cs -> (0 < size x)%N && (sumn x < max)%N]].
Proof.
elim/last_ind: cs => [|cs c] //; rewrite foldl_rcons; case: (foldl _ _ _) => -[ps chunk] part /=.
move=> [h1 h2 h3]; rewrite /part_step.
have hle : (sumn ps <= size cs)%N by rewrite -h1 leq_addr.
case: ifP => hm /=.
  rewrite sumn_rcons size_rcons -h1 addn1 add0n; split=> //.
    by rewrite drop_rcons ?h1 // drop_size /= addn0.
  move=> hc; have [|h4 h5 h6] := h3; first by move=> c' hc'; apply: hc; rewrite mem_rcons inE hc' orbT.
  have hcm : (c < max)%N by apply: hc; rewrite mem_rcons mem_head.
  split=> // x.
  have hne : cs != [::].
    by apply: contraTneq hm => e; move: h2; rewrite e /= => ->; rewrite add0n -ltnNge.
  have hsz : size (rcons ps part) = (size ps).+1 by rewrite size_rcons.
  suff -> : reshape (rcons ps part) (rcons cs c) = rcons (reshape ps cs) (drop (sumn ps) cs).
    rewrite mem_rcons inE => /orP[/eqP->|/h6//].
    by rewrite size_drop -h1 addKn h4 //= -h2 h5 // (leq_ltn_trans _ hcm).
  clear - h1; elim: ps cs h1 => [|p ps ih] cs /=; first by rewrite add0n drop0 => ->; rewrite -cats1 take_size_cat.
  move=> h; have hp : (p <= size cs)%N by rewrite -h -addnA leq_addr.
  rewrite -cats1 takel_cat // drop_cat; case: ltnP => hp1.
    rewrite cats1 ih; last by rewrite size_drop -h -addnA addKn.
    by rewrite /= drop_drop [(sumn ps + p)%N]addnC.
  have e : size cs = p by apply/eqP; rewrite eqn_leq hp hp1.
  have h0 : (sumn ps + part = 0)%N by apply/eqP; rewrite -(eqn_add2l p) addnA h e addn0.
  rewrite e subnn drop0 -[[:: c]]/(rcons [::] c) ih ?h0 //; congr (_ :: _); rewrite !drop_oversize ?e ?leq_addr //.
rewrite size_rcons addnS h1; split=> //.
  by rewrite drop_rcons // sumn_rcons h2.
move=> hc; have [|h4 h5 h6] := h3; first by move=> c' hc'; apply: hc; rewrite mem_rcons inE hc' orbT.
split=> // [_|x]; first by rewrite ltnNge hm.
suff -> : reshape ps (rcons cs c) = reshape ps cs by apply: h6.
clear - hle; elim: ps cs hle => [|p ps ih] cs //= h; have hp : (p <= size cs)%N by apply: leq_trans h; rewrite leq_addr.
rewrite -cats1 takel_cat // drop_cat; case: ltnP => hp1; first by rewrite cats1 ih // size_drop leq_subRL.
have e : size cs = p by apply/eqP; rewrite eqn_leq hp hp1.
by rewrite e subnn drop0 -[[:: c]]/(rcons [::] c) ih -?e ?drop_size // -(leq_add2l p) -{2}e addn0.
Qed.
End Parts.

(** ** Products by parts *)
Section Groups.
Variable R : ringType.
Lemma group_part (parts : seq nat) (xs : seq R) res k p acc : vget parts k = Some p -> (size acc + size xs <= p)%N ->
  ofold (group_step parts) (res, acc, k) xs = Some (if (xs != [::]) && (size acc + size xs == p)%N then (rcons res (\prod_(x <- acc ++ xs) x), [::], k.+1) else (res, acc ++ xs, k)).
Proof.
move=> hp; elim: xs acc => [|x xs ih] acc /= h; first by rewrite cats0.
rewrite hp /= size_rcons; case: (eqVneq (size acc).+1 p) => e.
  case: xs ih h => [|y xs] ih /= h; last by move: h; rewrite -e !addnS ltnS -addnS -[X in (_ <= X)%N]addn0 leq_add2l.
  by rewrite addn1 e eqxx cats1.
rewrite ih ?size_rcons; last by rewrite addSnnS.
rewrite addSnnS cat_rcons; case: xs {ih h} => //=.
by rewrite addn1 (negbTE e).
Qed.
Lemma group_all (parts : seq nat) (xs : seq R) res k pre : parts = pre ++ drop k parts -> size pre = k ->
  all (fun p => 0 < p)%N (drop k parts) -> sumn (drop k parts) = size xs ->
  ofold (group_step parts) (res, [::], k) xs = Some (res ++ [seq \prod_(x <- s) x | s <- reshape (drop k parts) xs], [::], size parts).
Proof.
move=> e1 e2; have : (k <= size parts)%N by rewrite e1 size_cat e2 leq_addr.
move e : (drop k parts) => rest hk; elim: rest k xs res pre e e1 e2 hk => [|p rest ih] k xs res pre e e1 e2 hk /=.
  move=> _ /esym/size0nil ->; rewrite /= cats0; congr (Some (_, _, _)).
  by apply/eqP; rewrite eqn_leq hk /= leqNgt; apply/negP => h; have := size_drop k parts; rewrite e /= => /esym/eqP; rewrite subn_eq0 leqNgt h.
case/andP=> p0 hall hs.
have hkp : vget parts k = Some p.
  by rewrite (vget_nth 0%N); last (rewrite ltnNge; apply/negP => h; move: e; rewrite drop_oversize); rewrite // -[k]addn0 -nth_drop e.
have hlt : (k < size parts)%N by rewrite ltnNge; apply/negP => h; move: e; rewrite drop_oversize.
have hd : drop k.+1 parts = rest by rewrite -[k.+1]add1n -drop_drop e /= drop0.
rewrite -[xs in LHS](cat_take_drop p).
have htake : size (take p xs) = p by rewrite size_takel // -hs leq_addr.
have ofold_cat s1 s2 st : ofold (@group_step R parts) st (s1 ++ s2) = obnd (ofold (group_step parts) st s1) (fun st => ofold (group_step parts) st s2).
  by elim: s1 st => //= x s1 ihc st; case: (group_step _ _ _).
rewrite ofold_cat (@group_part parts _ _ k p) ?add0n ?htake ?eqxx //=.
rewrite -size_eq0 htake -lt0n p0 /= (ih k.+1 _ _ (rcons pre p)) //.
- by rewrite cat_rcons.
- by rewrite hd cat_rcons -e -e1.
- by rewrite size_rcons e2.
- by rewrite size_drop -hs addKn.
Qed.
Lemma group_productsE (parts : seq nat) (xs : seq R) : all (fun p => 0 < p)%N parts -> sumn parts = size xs ->
  group_products parts xs = Some [seq \prod_(x <- s) x | s <- reshape parts xs].
Proof. by move=> h1 h2; rewrite /group_products (@group_all parts xs [::] 0 [::]) ?drop0. Qed.
(** a first part of size zero is never completed *)
Lemma group_zero (parts : seq nat) (xs : seq R) : xs != [::] -> group_products (0%N :: parts) xs = None.
Proof.
move=> hx; rewrite /group_products.
have H acc : ofold (group_step (0%N :: parts)) ([::], acc, 0%N) xs = Some ([::], acc ++ xs, 0%N).
  by elim: (xs) acc => [|x s ih] acc /=; rewrite ?cats0 // size_rcons /= ih cat_rcons.
by rewrite H /= size_eq0 (negbTE hx).
Qed.
End Groups.

(** the verifier's running products *)
Lemma vgroup_productsE (F : fieldType) (parts : seq nat) (xs : seq F) : vgroup_products parts xs = group_products parts xs.
Proof.
rewrite /vgroup_products /group_products.
have H res acc k : ofold (vgroup_step parts) (res, \prod_(x <- acc) x, size acc, k) xs =
    omap (fun st => (st.1.1, \prod_(x <- st.1.2) x, size st.1.2, st.2)) (ofold (group_step parts) (res, acc, k) xs).
  elim: xs res acc k => [|x xs ih] res acc k //=.
  rewrite size_rcons; case: (vget parts k) => //= p; have -> : \prod_(i <- acc) i * x = \prod_(i <- rcons acc x) i by rewrite -cats1 big_cat big_seq1.
  case: eqP => _ //=.
    by have := ih (rcons res (\prod_(i <- rcons acc x) i)) [::] k.+1; rewrite big_nil.
  by rewrite -(size_rcons acc x) ih.
have := H [::] [::] 0%N; rewrite big_nil => ->; case: (ofold _ _ _) => [[[res acc] k]|] //=.
Qed.
