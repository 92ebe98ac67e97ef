(** Degrees of the constraint polynomials of the Placeholder prover. *)
From Coq Require Import NArith.
From mathcomp Require Import all_ssreflect all_algebra.
From Verif.Model Require Import Base OrderedMap HashMap Domain Expression PlonkVariable PlonkTable CycleRepresentation PolysEvaluator
  PermutationArgument GatesArgument LookupArgument Quotient Placeholder.
From Verif.Spec Require Import ExprSpec PlaceholderSpec.
From Verif.Proofs Require Import NatTac KzgProofs PermProofs ExprProofs PermArgProofs GatesProofs LookupProofs LookupSortProofs QuotientProofs
  PlaceholderRun.
From Verif.Props Require Import C15_CachedEvaluation C29_GatesArgument C28_LookupParts C30_QuotientSplitting.
Set Implicit Arguments.
Unset Strict Implicit.
Unset Printing Implicit Defensive.
Import GRing.Theory.
Local Open Scope ring_scope.

Section Degrees.
Variables (F : fieldType) (omega : F) (rows : nat) (T : Type) (challenge : T -> F * T).
Hypotheses (prim : rows.-primitive_root omega).
Notation bounded := (bounded rows).
Notation dfs := (dfs_of_values omega rows).
Implicit Types p q : {poly F}.

Let r0 : (0 < rows)%N. Proof. by case/andP: prim. Qed.
Let o0 : omega != 0. Proof. exact: omega_neq0 prim. Qed.

Lemma boundedN k p : bounded k p -> bounded k (- p).
Proof. by rewrite /C28_LookupParts.bounded size_opp. Qed.
Lemma boundedB k p q : bounded k p -> bounded k q -> bounded k (p - q).
Proof. by move=> hp hq; apply: boundedD => //; apply: boundedN. Qed.
Lemma bounded_one k : bounded k (1 : {poly F}). Proof. exact: (boundedC rows k (1 : F)). Qed.
Lemma bounded_zero k : bounded k (0 : {poly F}). Proof. by rewrite /C28_LookupParts.bounded size_poly0. Qed.
Lemma bounded_dfs v : bounded 1 (dfs v).
Proof. by rewrite bounded1 //; exact: size_dfs. Qed.
Lemma bounded_prod1 (ps : seq {poly F}) : all (bounded 1) ps -> bounded (size ps) (\prod_(p <- ps) p).
Proof.
elim: ps => [|p ps ih] /=; first by rewrite big_nil => _; exact: bounded_one.
by case/andP=> hp hps; rewrite big_cons -add1n; apply: boundedM => //; exact: ih.
Qed.

Lemma vget_mem (A : eqType) (s : seq A) i x : vget s i = Some x -> x \in s.
Proof. by elim: s i => [|a s ih] [|i] //= => [[->]|/ih h]; rewrite inE ?eqxx // h orbT. Qed.
Lemma zip_mem (A B : eqType) (s : seq A) (t : seq B) x : x \in zip s t -> x.1 \in s /\ x.2 \in t.
Proof.
elim: s t => [|a s ih] [|b t] //=; rewrite inE => /orP[/eqP->|/ih [h1 h2]]; first by split; exact: mem_head.
by rewrite !inE h1 h2 !orbT.
Qed.

(** ** The permutation argument *)
Lemma chunk_bounded m (gs : seq {poly F}) k : all (bounded 1) gs -> (size gs <= k)%N \/ (1 < m /\ m - 1 <= k)%N ->
  all (bounded k) (chunk_products m gs).
Proof.
move=> hg hk; rewrite /chunk_products.
suff : let st := foldl (chunk_step m) ([::], [::]) gs in [/\ all (bounded k) st.1, all (bounded 1) st.2 & (size st.2 <= k)%N].
  case: (foldl _ _ _) => a b /= [ha hb hs]; case: ifP => // _; rewrite all_rcons ha andbT.
  by apply: (bounded_le hs); exact: bounded_prod1.
pose ok (st : seq {poly F} * seq {poly F}) n := [/\ all (bounded k) st.1, all (bounded 1) st.2 &
  (size st.2 + n <= k)%N \/ (1 < m /\ m - 1 <= k)%N /\ (size st.2 < m - 1)%N].
have : ok ([::], [::]) (size gs).
  split=> //=; case: hk => [h|[h1 h2]]; [by left|by right; split=> //; rewrite subn_gt0].
move: ([::], [::]) => st; elim: gs st hg {hk} => [|g gs ih] [a b] /=.
  by move=> _ [/= ha hb hs]; split=> //; case: hs => [|[[h1 h2] h3]]; [rewrite addn0|move: (size b) h3 => n h3; slia].
case/andP=> hg hgs [/= ha hb hs]; apply: ih => //; rewrite /chunk_step /=.
have hsz : (size (rcons b g) <= k)%N.
  by rewrite size_rcons; case: hs => [|[[h1 h2] h3]]; slia.
case: ifP => [/andP[_ /eqP e]|hc]; split=> //=.
- rewrite all_rcons ha andbT; apply: (bounded_le hsz); apply: bounded_prod1; by rewrite all_rcons hg hb.
- case: hs => [h|[[h1 h2] h3]]; [left; slia|by right; split=> //; slia].
- by rewrite all_rcons hg hb.
- rewrite size_rcons; case: hs => [h|[[h1 h2] h3]]; first by left; slia.
  right; split=> //; move: hc; rewrite size_rcons.
  have -> : m != 0%N by slia.
  by move/negbT; rewrite /= ; slia.
Qed.

Lemma perm_sum_bounded k alphas gs hs (parts : seq {poly F}) prev last s : all (bounded k) gs -> all (bounded k) hs ->
  all (bounded 1) parts -> bounded 1 prev -> bounded 1 last -> perm_sum alphas gs hs parts prev last = Some s -> bounded k.+1 s.
Proof.
elim: alphas gs hs parts prev s => [|a alphas ih] [|g gs] [|h hs] [|c parts] prev s //=.
- by move=> /andP[hg _] /andP[hh _] _ hp hl [<-]; apply: boundedB; rewrite -add1n; apply: boundedM.
- by move=> /andP[hg _] /andP[hh _] _ hp hl [<-]; apply: boundedB; rewrite -add1n; apply: boundedM.
move=> /andP[hg hgs] /andP[hh hhs] /andP[hc hcs] hp hl; case e : (perm_sum _ _ _ _ _ _) => [x|] //= [<-].
apply: boundedD; last exact: (ih gs hs parts c).
by apply: boundedZ; apply: boundedB; rewrite -add1n; apply: boundedM.
Qed.

Lemma factors_bounded (S cols : seq {poly F}) beta gamma : all (bounded 1) S -> all (bounded 1) cols -> all (bounded 1) (perm_factors S cols beta gamma).
Proof.
rewrite /perm_factors; elim: S cols => [|x S ih] [|c cols] //= /andP[hx hS] /andP[hc hcols].
rewrite ih // andbT; apply: boundedD => //; apply: boundedD; [exact: boundedZ|exact: boundedC].
Qed.

Lemma perm_bounded pd (cols : seq {poly F}) tr Fs b tr' k : all (bounded 1) (pd_S_id pd) -> all (bounded 1) (pd_S_sigma pd) -> all (bounded 1) cols ->
  bounded 1 (pd_q_last pd) -> bounded 1 (pd_q_blind pd) -> bounded 1 (pd_lagrange_0 pd) ->
  (0 < k)%N -> (size cols <= k)%N \/ (1 < pd_max_quotient_chunks pd /\ pd_max_quotient_chunks pd - 1 <= k)%N ->
  perm_prove_eval omega rows challenge pd cols tr = Some (Fs, b, tr') -> all (bounded k.+2) Fs && all (bounded 1) b.
Proof.
move=> hid hsig hcols hl hb h0 k0 hk; rewrite /perm_prove_eval.
case: (challenge tr) => beta tr1; case: (challenge tr1) => gamma tr2.
move=> /ogP[] /andP[/eqP e1 /eqP e2]; cbv zeta.
set g_v := perm_factors _ _ _ _; set h_v := perm_factors _ _ _ _.
have hgv : all (bounded 1) g_v by exact: factors_bounded.
have hhv : all (bounded 1) h_v by exact: factors_bounded.
have sg : size g_v = size cols by rewrite size_factors.
have sh : size h_v = size cols by rewrite size_factors.
clearbody g_v h_v; set VP := dfs _; have hVP : bounded 1 VP by exact: bounded_dfs.
have hgs : all (bounded k) (chunk_products (pd_max_quotient_chunks pd) g_v) by apply: chunk_bounded; rewrite ?sg.
have hhs : all (bounded k) (chunk_products (pd_max_quotient_chunks pd) h_v) by apply: chunk_bounded; rewrite ?sh.
move=> /ogP[_] /ogP[_]; case: (draw challenge _ _) => alphas tr3.
have hF0 : bounded k.+2 ((1 - VP) * pd_lagrange_0 pd).
  apply: (@bounded_le _ _ 2) => //; apply: (@boundedM _ _ 1 1) => //; apply: boundedB => //; exact: bounded_one.
have hF2 : bounded k.+2 ((VP - 1) * VP * pd_q_last pd).
  apply: (@bounded_le _ _ 3) => //; apply: (@boundedM _ _ 2 1) => //; apply: (@boundedM _ _ 1 1) => //; apply: boundedB => //; exact: bounded_one.
have hshift : bounded 1 (polynomial_shift omega VP 1) by exact: bounded_shift.
case: eqP => _.
  move=> /olP[g hg] /olP[h hh] [<- <- _] /=; rewrite hF0 hF2 hVP !andbT.
  have hg' : bounded k g := allP hgs _ (vget_mem hg).
  have hh' : bounded k h := allP hhs _ (vget_mem hh).
  rewrite -[k.+2]add1n; apply: boundedM; first by apply: boundedB => //; apply: boundedB => //; exact: bounded_one.
  by apply: boundedB; rewrite -add1n; apply: boundedM.
move=> /olP[s hs] [<- <- _] /=; rewrite hF0 hF2 hVP !andbT /=.
have hparts : all (bounded 1) [seq dfs v | v <- perm_parts omega (pd_usable_rows pd) (take (pd_permutation_parts pd - 1) (chunk_products (pd_max_quotient_chunks pd) g_v))
      (take (pd_permutation_parts pd - 1) (chunk_products (pd_max_quotient_chunks pd) h_v)) (V_P_values omega rows g_v h_v)].
  by rewrite all_map; apply/allP => v _ /=; exact: bounded_dfs.
rewrite hparts andbT -addn1; apply: boundedM; last first.
  by apply: boundedB; [apply: boundedD|exact: bounded_one].
exact: (perm_sum_bounded hgs hhs hparts hVP hshift hs).
Qed.

(** ** The gates argument *)
Section Table.
Variables (pt : polynomial_table F) (hpt : forall v p, variable_polynomial pt v = Some p -> (size p <= rows)%N).
Lemma horner_rec_bounded k (xs : seq {poly F}) (x : F) : all (bounded k) xs -> bounded k (horner_rec xs x%:P).
Proof.
elim: xs => [|y xs ih] /=; first by move=> _; exact: bounded_zero.
case/andP=> hy /ih h; apply: boundedD => //; rewrite mulrC mul_polyC; exact: boundedZ.
Qed.
Lemma foldl_maxn (A : Type) (f : A -> nat) s m : (m <= foldl (fun m x => maxn m (f x)) m s)%N /\
  forall x, List.In x s -> (f x <= foldl (fun m x => maxn m (f x)) m s)%N.
Proof.
elim: s m => [|a s ih] m /=; first by split.
have [h1 h2] := ih (maxn m (f a)); split; first by apply: leq_trans h1; exact: leq_maxl.
by move=> x [<-|/h2 //]; apply: leq_trans h1; exact: leq_maxr.
Qed.
Lemma gates_degree_ge (gates : seq (plonk_gate F)) g c : List.In g gates -> List.In c (g_constraints g) ->
  (N.to_nat (compute_max_degree c) <= gates_degree gates)%N.
Proof.
rewrite /gates_degree; move: 0%N => m hg hc.
have mono (s : seq (plonk_gate F)) m' : (m' <= foldl (fun m g => foldl (fun m c => maxn m (N.to_nat (compute_max_degree c))) m (g_constraints g)) m' s)%N.
  elim: s m' => [|a s ih] m' //=; apply: leq_trans (ih _); exact: (foldl_maxn _ _ _).1.
elim: gates m hg => [|a gates ih] m //= [e|h]; last exact: ih.
by subst a; apply: leq_trans (mono _ _); exact: (foldl_maxn (fun c => N.to_nat (compute_max_degree c)) (g_constraints g) m).2.
Qed.
Lemma the_sum_bounded (gates : seq (plonk_gate F)) theta D :
  (forall g c, List.In g gates -> List.In c (g_constraints g) -> degree_fits c) -> (gates_degree gates <= D)%N ->
  bounded D.+1 (the_sum omega pt gates theta).
Proof.
move=> hd hD; apply: horner_rec_bounded; rewrite all_map.
have : forall x, List.In x (selected gates) -> bounded D.+1 (evaluate (val omega pt) (convert_expr id polyC x.1) * val omega pt (selector_variable x.2)).
  move=> [c sel] /in_selected [g [hg hc _]] /=; rewrite -addn1; apply: boundedM; last exact: bounded_var.
  apply: (@bounded_le _ _ (N.to_nat (compute_max_degree c))); first by apply: leq_trans hD; exact: gates_degree_ge hg hc.
  rewrite degree_exact; last exact: hd hg hc.
  by apply: size_subst => v; rewrite -[_.+1]/(rows.-1.+1) (prednK r0) -bounded1 //; exact: bounded_var.
by elim: (selected gates) => //= x xs ih h; rewrite h ?ih //; [move=> y hy; apply: h; right|left].
Qed.

(** ** The lookup argument *)
Lemma sumn_reshape parts (cs : seq nat) x : x \in reshape parts cs -> (sumn x <= sumn cs)%N.
Proof.
elim: parts cs => [|n parts ih] cs //=; rewrite inE -{3}(cat_take_drop n cs) sumn_cat => /orP[/eqP->|/ih h].
  exact: leq_addr.
by apply: leq_trans h _; exact: leq_addl.
Qed.

Variables (gates : seq (lookup_gate F)) (tables : seq lookup_table) (max k : nat).
Hypotheses (hpos : all (fun n => 0 < n)%N (lookup_parts gates tables max))
  (hsum : sumn (lookup_parts gates tables max) = size (item_costs gates tables))
  (hk : (sumn (item_costs gates tables) <= k)%N \/ [/\ max != 0%N, fits gates tables max & (max - 1 <= k)%N])
  (hd : forall g c e, List.In g gates -> List.In c (lg_constraints g) -> List.In e (lc_lookup_input c) -> degree_fits e).

Lemma cost_groups x : x \in reshape (lookup_parts gates tables max) (item_costs gates tables) -> (sumn x <= k)%N.
Proof.
move=> hx; case: hk => [h|[h1 h2 h3]]; first by apply: leq_trans (sumn_reshape hx) h.
case: (eqVneq (item_costs gates tables) [::]) => [e|hne].
  by apply: leq_trans (sumn_reshape hx) _; rewrite e.
have [_ _ h] := C28_parts h1 hne h2; have /andP[_] := h _ hx; move: (sumn x) => n; slia.
Qed.
Lemma groups_bounded (fs gs : seq {poly F}) : all2 (fun c p => bounded c p) (item_costs gates tables) fs ->
  group_products (lookup_parts gates tables max) fs = Some gs -> all (bounded k) gs.
Proof.
move=> h; rewrite group_productsE // => [[<-]|]; last by rewrite hsum (all2_size h).
exact: (bounded_groups h cost_groups).
Qed.

Variables (C : Type) (absorb : T -> C -> T) (commit : seq {poly F} -> C) (ql qb : {poly F}) (usable : nat).
Lemma lookup_bounded tr res tr' : bounded 1 ql -> bounded 1 qb -> (0 < k)%N ->
  lookup_prove_eval omega rows challenge absorb commit (LookupData gates tables ql qb (lagrange_polynomial omega rows 0) max usable) pt tr = Some (res, tr') ->
  [&& all (bounded k.+2) (lr_F res), all (bounded 1) (lr_sorted res) & all (bounded 1) (lr_V_L res :: lr_parts res)].
Proof.
move=> hl hb k0; rewrite /lookup_prove_eval /=; case: (challenge tr) => theta tr1.
move=> /olP[vals hv] /olP[ins hi] /olP[sv hsv]; cbv zeta.
case: (challenge _) => beta tr2; case: (challenge tr2) => gamma tr3; case: (draw challenge _ tr3) => alphas tr4.
move=> /olP[vl hvl] /ogP[/eqP hsz] /olP[gs hgs] /olP[hs hhs] /olP[fp hfp] /ogP[_].
have hsorted : all (bounded 1) [seq dfs s | s <- sv] by rewrite all_map; apply/allP => v _ /=; exact: bounded_dfs.
set sorted := [seq dfs s | s <- sv] in hsz hhs hfp hsorted *; clearbody sorted.
case: (draw challenge _ tr4) => alphas3 tr5 [<- _] /=.
have hm : (size (1 - ql - qb)%R <= rows)%N.
  by rewrite -bounded1 //; apply: boundedB => //; apply: boundedB => //; exact: bounded_one.
have hgs' : all (bounded k) gs.
  by apply: groups_bounded hgs; exact: (factors_cost (tables := tables) beta gamma o0 r0 hpt hm hd hi hv).
have hhs' : all (bounded k) hs.
  apply: groups_bounded hhs; apply: sorted_cost => //; first by rewrite -hsz hsum.
  by move=> s /(allP hsorted); rewrite bounded1.
set VL := dfs vl in hfp *; have hVL : bounded 1 VL by exact: bounded_dfs.
have hL0 : bounded 1 (lagrange_polynomial omega rows 0) by exact: bounded_dfs.
have hshift : bounded 1 (polynomial_shift omega VL 1) by exact: bounded_shift.
have hq : bounded 1 (ql + qb - 1) by apply: boundedB; [apply: boundedD|exact: bounded_one].
have [hf1 hf2] : bounded k.+2 fp.1 /\ all (bounded 1) fp.2.
  move: hfp; case: eqP => _.
    move=> /olP[g hg] /olP[h hh] [<-] /=; split=> //.
    have hg' : bounded k g := allP hgs' _ (vget_mem hg).
    have hh' : bounded k h := allP hhs' _ (vget_mem hh).
    by rewrite -[k.+2]addn1; apply: boundedM => //; apply: boundedB; rewrite -addn1; apply: boundedM.
  move=> /ogP[_] /ogP[_] /olP[s hs'] [<-] /=.
  have hparts u a b c : all (bounded 1) [seq dfs v | v <- perm_parts omega u a b c].
    by rewrite all_map; apply/allP => v _ /=; exact: bounded_dfs.
  split=> //; rewrite -[k.+2]addn1; apply: boundedM => //.
  exact: (perm_sum_bounded hgs' hhs' (hparts _ _ _ _) hVL hshift hs').
rewrite hf1 hf2 hVL hsorted !andbT.
have h2 p : bounded 2 p -> bounded k.+2 p by apply: bounded_le.
have h3 p : bounded 3 p -> bounded k.+2 p by apply: bounded_le.
apply/and3P; split.
- by apply: h2; apply: (@boundedM _ _ 1 1) => //; apply: boundedB => //; exact: bounded_one.
- apply: h3; apply: (@boundedM _ _ 1 2) => //; apply: boundedB; first exact: (@boundedM _ _ 1 1).
  by apply: (@bounded_le _ _ 1).
- rewrite andTb big_seq; apply: (big_ind (fun p => bounded k.+2 p)) => [|p q|x hx]; [exact: bounded_zero|exact: boundedD|].
  apply: h2; apply: (@boundedM _ _ 1 1); last exact: boundedZ.
  have [_ /zip_mem[/mem_behead ha hb']] := zip_mem hx.
  by apply: boundedB; [exact: (allP hsorted)|apply: bounded_shift => //; exact: (allP hsorted)].
Qed.
End Table.
End Degrees.
