(** C28: packing of the lookup argument into parts. *)
From Coq Require Import NArith.
From mathcomp Require Import all_ssreflect all_algebra.
From Verif.Model Require Import Base HashMap OrderedMap Expression PlonkVariable PlonkTable PermutationArgument GatesArgument LookupArgument.
From Verif.Spec Require Import ExprSpec.
From Verif.Proofs Require Import NatTac KzgProofs PermProofs ExprProofs PermArgProofs GatesProofs LookupProofs.
From Verif.Props Require Import C15_CachedEvaluation C29_GatesArgument.
Set Implicit Arguments.
Unset Strict Implicit.
Unset Printing Implicit Defensive.
Import GRing.Theory.
Local Open Scope ring_scope.

Section C28.
Variable F : fieldType.
Implicit Types (gates : seq (lookup_gate F)) (tables : seq lookup_table).

(** ** Specification: the items that are packed, in order, with their costs: a lookup constraint costs one more than the
    largest degree of its inputs, a lookup option costs three. *)
Definition item_costs gates tables : seq nat :=
  flatten [seq [seq (input_degree c).+1 | c <- lg_constraints g] | g <- gates] ++
  flatten [seq nseq (size (lt_lookup_options t)) 3%N | t <- tables].
Definition fits gates tables (max : nat) : Prop := forall c, c \in item_costs gates tables -> (c < max)%N.

(** The part sizes add up to the number of items: lookup constraints plus lookup options (with no limit: to the number of
    sorted columns). *)
Theorem C28_sum gates tables max : max != 0%N ->
  sumn (lookup_parts gates tables max) = (lookup_constraints_num gates + lookup_options_num tables)%N.
Proof.
move=> h; rewrite lookup_partsE (negbTE h) -size_costs; have := @part_fold max (costs gates tables).
by case: (foldl _ _ _) => -[ps chunk] part /= [h1 _ _]; rewrite sumn_rcons.
Qed.
Theorem C28_sorted_columns gates tables max : size gates != 0%N ->
  sumn (lookup_parts gates tables max) = sorted_lookup_columns_number gates tables.
Proof.
move=> hg; have hs : sorted_lookup_columns_number gates tables = (lookup_constraints_num gates + lookup_options_num tables)%N.
  by rewrite /sorted_lookup_columns_number (negbTE hg) addnC.
by case: (eqVneq max 0%N) => [->|h]; [rewrite lookup_partsE eqxx /= addn0|rewrite C28_sum].
Qed.
(** If every item costs less than the limit, the parts cut the list of items into non-empty groups, in order, and the total
    cost of each group is below the limit. *)
Theorem C28_parts gates tables max : max != 0%N -> item_costs gates tables != [::] -> fits gates tables max ->
  let parts := lookup_parts gates tables max in
  [/\ flatten (reshape parts (item_costs gates tables)) = item_costs gates tables,
      [seq size x | x <- reshape parts (item_costs gates tables)] = parts &
      forall x, x \in reshape parts (item_costs gates tables) -> (0 < size x)%N && (sumn x < max)%N].
Proof.
move=> hm hne hf parts; rewrite /parts lookup_partsE (negbTE hm).
have := @part_fold max (costs gates tables); rewrite -[costs _ _]/(item_costs gates tables); rewrite /fits in hf; move: (item_costs _ _) hne hf => cs hne hf.
case: (foldl _ _ _) => -[ps chunk] part /= [h1 h2 /(_ hf)[h3 h4 h5]].
have hsum : sumn (rcons ps part) = size cs by rewrite sumn_rcons.
have e : reshape (rcons ps part) cs = rcons (reshape ps cs) (drop (sumn ps) cs).
  clear - h1; elim: ps cs h1 => [|p ps ih] cs /=; first by rewrite add0n drop0 => ->; rewrite take_size.
  by move=> h; rewrite ih ?drop_drop 1?[(sumn ps + p)%N]addnC // size_drop -h -addnA addKn.
split; first by rewrite reshapeKr // hsum.
  by have := @reshapeKl _ (rcons ps part) cs; rewrite /shape; apply; rewrite hsum.
move=> x; rewrite e mem_rcons inE => /orP[/eqP->|/h5//].
by rewrite size_drop -h1 addKn h3 //= -h2 h4 // lt0n.
Qed.

(** ** What the limit is for: degrees. For a constraint system whose columns have degree below [rows], the products of the
    factors of the prover, grouped by the parts, have degree at most (max - 1)(rows - 1). *)
Section Degrees.
Variables (omega : F) (rows : nat) (pt : polynomial_table F) (mask : {poly F}) (theta beta gamma : F).
Hypotheses (o0 : omega != 0) (r0 : (0 < rows)%N) (hpt : forall v p, variable_polynomial pt v = Some p -> (size p <= rows)%N)
  (hmask : (size mask <= rows)%N).
Let m := rows.-1.
Definition bounded (k : nat) (p : {poly F}) : bool := (size p <= (m * k).+1)%N.
Lemma boundedD k p q : bounded k p -> bounded k q -> bounded k (p + q).
Proof. by rewrite /bounded => h1 h2; apply: leq_trans (size_add _ _) _; rewrite geq_max h1. Qed.
Lemma boundedM k l p q : bounded k p -> bounded l q -> bounded (k + l) (p * q).
Proof.
rewrite /bounded => h1 h2; apply: leq_trans (size_mul_leq _ _) _; rewrite mulnDr.
by move: (m * k)%N (m * l)%N h1 h2 => a b h1 h2; slia.
Qed.
Lemma boundedZ k c p : bounded k p -> bounded k (c *: p).
Proof. by move=> h; apply: leq_trans (size_scale_leq _ _) h. Qed.
Lemma boundedC k c : bounded k c%:P.
Proof. by rewrite /bounded; apply: leq_trans (size_polyC_leq1 _) _. Qed.
Lemma bounded_le k l p : (k <= l)%N -> bounded k p -> bounded l p.
Proof. by move=> h; rewrite /bounded => h1; apply: leq_trans h1 _; rewrite ltnS leq_mul2l h orbT. Qed.
Lemma bounded1 p : bounded 1 p = (size p <= rows)%N.
Proof. by rewrite /bounded muln1 /m (prednK r0). Qed.
Lemma bounded_shift k p z : bounded k p -> bounded k (polynomial_shift omega p z).
Proof. by rewrite /bounded /polynomial_shift size_comp_poly2 // size_scale ?size_polyX // expfz_neq0. Qed.
Lemma bounded_compress k tag v xs : bounded 1 tag -> bounded k.+1 v -> all (bounded k) xs -> bounded k.+1 (compress tag theta%:P v xs).
Proof.
move=> ht; rewrite /compress; have h0 : bounded 0 theta%:P by exact: boundedC.
suff H acc : bounded 0 acc -> bounded k.+1 v -> all (bounded k) xs ->
   bounded k.+1 (foldl (fun st (x : {poly F}) => (st.1 + st.2 * tag * x, st.2 * theta%:P)) (v, acc) xs).1 by exact: H.
elim: xs v acc => [|x xs ih] v acc hacc hv //= /andP[hx hxs].
apply: ih => //; first exact: (boundedM hacc h0).
by apply: boundedD => //; have := boundedM (boundedM hacc ht) hx; rewrite add0n add1n.
Qed.
Lemma bounded_var v : bounded 1 (val omega pt v).
Proof.
rewrite /val /variable_value; case e : (variable_polynomial pt v) => [p|] /=; last by rewrite /bounded size_poly0.
by have := hpt e; rewrite -bounded1 => h; case: eqP => _ //=; apply: bounded_shift.
Qed.

Lemma input_degree_ge (c : lookup_constraint F) e : List.In e (lc_lookup_input c) -> (N.to_nat (compute_max_degree e) <= input_degree c)%N.
Proof.
rewrite /input_degree; have H s a : (a <= foldl (fun k (li : plonk_constraint F) => maxn k (N.to_nat (compute_max_degree li))) a s)%N.
  by elim: s a => //= x s ih a; apply: leq_trans (ih _); rewrite leq_maxl.
elim: (lc_lookup_input c) 0%N => //= x s ih a [->|/ih//]; apply: leq_trans (H _ _); exact: leq_maxr.
Qed.
Lemma bounded_inputs gates ins :
  (forall g c e, List.In g gates -> List.In c (lg_constraints g) -> List.In e (lc_lookup_input c) -> degree_fits e) ->
  prepare_lookup_input omega pt theta gates = Some ins ->
  all2 (fun c p => bounded c p) (flatten [seq [seq (input_degree c).+1 | c <- lg_constraints g] | g <- gates]) ins.
Proof.
elim: gates ins => [|g gates ih] ins hd /=; first by case=> <-.
case es : (vget _ _) => [sel|] //=; case el : (omapM _ _) => [ls|] //=; case er : (prepare_lookup_input _ _ _ _) => [rest|] //= [<-].
have hrest := ih rest (fun g' c e hg => hd g' c e (or_intror hg)) er.
have hsel : bounded 1 sel.
  by rewrite bounded1; apply: (@hpt (selector_variable (lg_tag_index g))).
have {}hd := fun c e => hd g c e (or_introl erefl).
rewrite /= ; elim: (lg_constraints g) ls el hd => [|c cs ihc] ls /=; first by case=> <-.
case ex : (omapM (input_polynomial _ _) _) => [xs|] //=; case el : (omapM _ cs) => [ls'|] //= [<-] hd /=.
rewrite (ihc ls') // => [|c' e hc']; last by apply: hd; right.
rewrite andbT; apply: bounded_compress => //.
  by apply: boundedZ; apply: bounded_le hsel.
have {}hd := fun e he => hd c e (or_introl erefl) he.
have hdeg := @input_degree_ge c; move: (input_degree c) hdeg => D hdeg.
elim: (lc_lookup_input c) xs ex hd hdeg => [|e es' ihe] xs /=; first by case=> <-.
case ei : (input_polynomial _ _ _) => [x|] //=; case exs : (omapM _ es') => [xs'|] //= [<-] hd hdeg /=.
rewrite (ihe xs') // => [|e' he'|e' he']; [|by apply: hd; right|by apply: hdeg; right].
rewrite andbT; apply: (@bounded_le (N.to_nat (compute_max_degree e))); first by apply: hdeg; left.
move: ei; rewrite /input_polynomial; case: ifP => //= _; case ec : (cached_evaluate _ _ _) => [r|] //= [<-].
have [st [est _]] := C15_fresh (val omega pt) (convert_expr id polyC e : expr [eqType of plonk_variable] [comRingType of {poly F}]).
move: ec; rewrite [cached_evaluate _ _ _]est => -[<-] /=; rewrite degree_exact; last by apply: hd; left.
by apply: size_subst => v; rewrite -[_.+1]/(rows.-1.+1) (prednK r0) -bounded1; exact: bounded_var.
Qed.
Lemma bounded_values k tables vals : prepare_lookup_value pt theta mask k tables = Some vals ->
  all2 (fun c p => bounded c p) (flatten [seq nseq (size (lt_lookup_options t)) 3%N | t <- tables]) vals.
Proof.
elim: tables k vals => [|t tables ih] k vals /=; first by case=> <-.
case et : (vget _ _) => [tag|] //=; case ev : (omapM _ _) => [vs|] //=; case er : (prepare_lookup_value _ _ _ _ _) => [rest|] //= [<-].
have hrest := ih _ _ er.
have htag : bounded 1 tag by rewrite bounded1; apply: (@hpt (selector_variable (lt_tag_index t))).
elim: (lt_lookup_options t) vs ev => [|o os iho] vs /=; first by case=> <-.
case ec : (option_columns _ _ _) => [cols|] //=; case eo : (omapM _ os) => [vs'|] //= [<-] /=; rewrite (iho vs') // andbT.
rewrite -[3%N]/(2 + 1)%N; apply: boundedM; last by rewrite bounded1.
apply: bounded_compress => //; first by apply: boundedZ; apply: bounded_le htag.
move: ec; rewrite /option_columns; elim: (iota _ _) cols => [|i is' ihi] cols /=; first by case=> <-.
case eo' : (vget o i) => [v|] //=; case ep : (vget _ (pv_index v)) => [p|] //=; case ei : (omapM _ is') => [ps|] //= [<-] /=.
by rewrite ihi // andbT bounded1; apply: (@hpt (PlonkVariable (pv_index v) 0 false CConstant)).
Qed.

Lemma all2_cat (A B : Type) (r : A -> B -> bool) s1 s2 t1 t2 : all2 r s1 t1 -> all2 r s2 t2 -> all2 r (s1 ++ s2) (t1 ++ t2).
Proof. by elim: s1 t1 => [|x s1 ih] [|y t1] //= /andP[-> h1] h2; exact: ih. Qed.
Lemma all2_size (A B : Type) (r : A -> B -> bool) s t : all2 r s t -> size s = size t.
Proof. by elim: s t => [|x s ih] [|y t] //= /andP[_ /ih->]. Qed.
Lemma all2_take (A B : Type) (r : A -> B -> bool) n s t : all2 r s t -> all2 r (take n s) (take n t) && all2 r (drop n s) (drop n t).
Proof. by elim: s t n => [|x s ih] [|y t] [|n] //= /andP[-> h] //; exact: ih. Qed.
Lemma bounded_prod cs (ps : seq {poly F}) : all2 (fun c p => bounded c p) cs ps -> bounded (sumn cs) (\prod_(p <- ps) p).
Proof.
elim: cs ps => [|c cs ih] [|p ps] //=; first by rewrite big_nil /bounded size_poly1.
by case/andP=> h1 /ih h2; rewrite big_cons; apply: boundedM.
Qed.
Lemma bounded_groups parts cs (ps : seq {poly F}) k : all2 (fun c p => bounded c p) cs ps ->
  (forall x, x \in reshape parts cs -> (sumn x <= k)%N) -> all (bounded k) [seq \prod_(p <- s) p | s <- reshape parts ps].
Proof.
elim: parts cs ps => [|n parts ih] cs ps //= h hk; have /andP[h1 h2] := all2_take n h.
apply/andP; split; first by apply: bounded_le (bounded_prod h1); apply: hk; rewrite mem_head.
by apply: ih h2 _ => x hx; apply: hk; rewrite inE hx orbT.
Qed.

Lemma factors_cost gates tables ins vals :
  (forall g c e, List.In g gates -> List.In c (lg_constraints g) -> List.In e (lc_lookup_input c) -> degree_fits e) ->
  prepare_lookup_input omega pt theta gates = Some ins -> prepare_lookup_value pt theta mask 0 tables = Some vals ->
  all2 (fun c p => bounded c p) (item_costs gates tables) (g_factors omega ins vals beta gamma).
Proof.
move=> hd hi hv.
have e1 k p : bounded k p -> bounded k ((1 + beta) *: (gamma%:P + p)).
  by move=> hp; apply: boundedZ; apply: boundedD => //; exact: boundedC.
have e2 k p : bounded k p -> bounded k (((1 + beta) * gamma)%:P + p + beta *: polynomial_shift omega p 1).
  move=> hp; apply: boundedD; last by apply: boundedZ; apply: bounded_shift.
  by apply: boundedD => //; exact: boundedC.
apply: all2_cat.
  by have := bounded_inputs hd hi; elim: ins (flatten _) {hi} => [|p ps ih] [|c cs] //= /andP[/e1->] /ih.
by have := bounded_values hv; elim: vals (flatten _) {hv} => [|p ps ih] [|c cs] //= /andP[/e2->] /ih.
Qed.
Lemma sorted_cost gates tables (sorted : seq {poly F}) :
  size sorted = size (item_costs gates tables) -> (forall s, s \in sorted -> (size s <= rows)%N) ->
  all2 (fun c p => bounded c p) (item_costs gates tables) (h_factors omega sorted beta gamma).
Proof.
move=> hs hsr.
have hpos c : c \in item_costs gates tables -> (0 < c)%N.
  apply/allP: c; rewrite all_cat; apply/andP; split.
    elim: (gates) => //= g gs ih; rewrite all_cat ih andbT all_map; by elim: (lg_constraints g).
  by elim: (tables) => //= t ts ih; rewrite all_cat ih andbT; elim: (size _).
rewrite /h_factors; elim: (item_costs _ _) sorted hs hsr hpos => [|c cs ih] [|s ss] //= [es] hsr hpos.
rewrite ih //; first last.
- by move=> c' hc'; apply: hpos; rewrite inE hc' orbT.
- by move=> s' hs'; apply: hsr; rewrite inE hs' orbT.
have hb : bounded c s by apply: (@bounded_le 1); [apply: hpos|rewrite bounded1; apply: hsr]; rewrite mem_head.
rewrite andbT; apply: boundedD; last by apply: boundedZ; apply: bounded_shift.
by apply: boundedD => //; exact: boundedC.
Qed.

Theorem C28_degrees gates tables max ins vals (sorted : seq {poly F}) :
  max != 0%N -> item_costs gates tables != [::] -> fits gates tables max ->
  (forall g c e, List.In g gates -> List.In c (lg_constraints g) -> List.In e (lc_lookup_input c) -> degree_fits e) ->
  prepare_lookup_input omega pt theta gates = Some ins -> prepare_lookup_value pt theta mask 0 tables = Some vals ->
  size sorted = size (item_costs gates tables) -> (forall s, s \in sorted -> (size s <= rows)%N) ->
  let parts := lookup_parts gates tables max in
  exists gs hs, [/\ group_products parts (g_factors omega ins vals beta gamma) = Some gs,
    group_products parts (h_factors omega sorted beta gamma) = Some hs,
    size gs = size parts /\ size hs = size parts &
    forall p, p \in gs ++ hs -> (size p <= ((rows - 1) * (max - 1)).+1)%N].
Proof.
move=> hm hne hf hd hi hv hs hsr parts; have [h1 h2 h3] := C28_parts hm hne hf; rewrite -/parts in h1 h2 h3.
have hcost := factors_cost (tables := tables) hd hi hv.
have hcost' := sorted_cost hs hsr.
have hpos : all (fun p => 0 < p)%N parts.
  rewrite -h2 all_map; apply/allP => x /h3 /andP[]; by [].
have hsum : sumn parts = size (item_costs gates tables) by rewrite -h1 size_flatten /shape h2.
do 2 eexists; split; first by apply: group_productsE => //; rewrite hsum (all2_size hcost).
- by apply: group_productsE => //; rewrite hsum (all2_size hcost').
- by rewrite !size_map !size_reshape.
have hk x : x \in reshape parts (item_costs gates tables) -> (sumn x <= max - 1)%N.
  by move/h3 => /andP[_]; case: (max) => // n; rewrite subn1.
move=> p; rewrite mem_cat subn1 => /orP[] hp; last by apply: (allP (bounded_groups hcost' hk)).
by apply: (allP (bounded_groups hcost hk)).
Qed.
End Degrees.

(** ** Findings
    The preprocessor accepts every limit above the degrees of the constraints (and a limit of zero), but an item costs one
    more than the degree, an option costs three. If the first item reaches the limit, an empty first part is emitted. *)
Theorem C28_empty_part_refuted gates tables max c cs : item_costs gates tables = c :: cs -> (max <= c)%N -> max != 0%N ->
  exists parts, lookup_parts gates tables max = 0%N :: parts.
Proof.
move=> e hc hm; rewrite lookup_partsE (negbTE hm) -[costs _ _]/(item_costs gates tables) e /= hc /=.
have H ps l ch pt' : exists q, (foldl (part_step max) (0%N :: ps, ch, pt') l).1.1 = 0%N :: q.
  by elim: l ps ch pt' => [|x l ih] ps ch pt' /=; [exists ps|case: ifP => _; apply: ih].
have [q ->] := H [::] cs (0 + c)%N 1%N; by eexists.
Qed.
(** The prover never completes that part: proof generation stops. *)
Theorem C28_empty_part_fails (R : ringType) parts (factors : seq R) : factors != [::] ->
  group_products (0%N :: parts) factors = None.
Proof. exact: group_zero. Qed.
Lemma size_inputs (omega : F) pt theta gates ins : prepare_lookup_input omega pt theta gates = Some ins ->
  size ins = lookup_constraints_num gates.
Proof.
elim: gates ins => [|g gates ih] ins /=; first by case=> <-.
case: (vget _ _) => [sel|] //=; case el : (omapM _ _) => [ls|] //=; case er : (prepare_lookup_input _ _ _ _) => [rest|] //= [<-].
by rewrite size_cat (ih _ er) (omapM_size el).
Qed.
Lemma size_values (pt : polynomial_table F) theta mask k tables vals : prepare_lookup_value pt theta mask k tables = Some vals ->
  size vals = lookup_options_num tables.
Proof.
elim: tables k vals => [|t tables ih] k vals /=; first by case=> <-.
case: (vget _ _) => [tag|] //=; case ev : (omapM _ _) => [vs|] //=; case er : (prepare_lookup_value _ _ _ _ _) => [rest|] //= [<-].
by rewrite size_cat (ih _ _ er) (omapM_size ev).
Qed.
Theorem C28_prover_stops (omega : F) rows (T : Type) (challenge : T -> F * T) (C : Type) (absorb : T -> C -> T) (commit : seq {poly F} -> C)
  ld pt tr c cs :
  item_costs (ld_gates ld) (ld_tables ld) = c :: cs -> (ld_max_quotient_chunks ld <= c)%N -> ld_max_quotient_chunks ld != 0%N ->
  lookup_prove_eval omega rows challenge absorb commit ld pt tr = None.
Proof.
move=> e hc hm; rewrite /lookup_prove_eval; case: (challenge tr) => theta tr1.
case ev : (prepare_lookup_value _ _ _ _ _) => [vals|] //=; case ei : (prepare_lookup_input _ _ _ _) => [ins|] //=.
case: (sort_polynomials _ _ _ _) => [sv|] //=; case: (challenge _) => beta tr2; case: (challenge _) => gamma tr3.
have [parts ->] := C28_empty_part_refuted e hc hm; case: (draw _ _ _) => alphas tr4; case: (V_L_values _ _ _ _ _ _ _) => [vl|] //=.
case: ifP => // _; rewrite group_zero // -size_eq0 size_cat !size_map (size_inputs ei) (size_values ev).
by have := size_costs (ld_gates ld) (ld_tables ld); rewrite -[costs _ _]/(item_costs _ _) e => <-.
Qed.
(** A later item that costs at least the limit is put in a part of its own that exceeds it. *)
Theorem C28_oversized_refuted : exists gates tables max, [/\ size gates != 0%N, (max_lookup_gates_degree gates < max)%N,
  lookup_parts gates tables max = [:: 1; 1]%N & has (fun x => max <= sumn x)%N (reshape (lookup_parts gates tables max) (item_costs gates tables))].
Proof.
exists [:: LookupGate [:: LookupConstraint 1 [:: expr_var [comRingType of F] (PlonkVariable 0 0 false CWitness)]] 0],
  [:: LookupTable 1 1 [:: [:: PlonkVariable 0 0 false CConstant]]], 3%N; by vm_compute.
Qed.
(** Tables without lookup gates: the parts count the options, the sorted columns do not. *)
Theorem C28_no_gates_refuted : exists (gates : seq (lookup_gate F)) tables max,
  sumn (lookup_parts gates tables max) <> sorted_lookup_columns_number gates tables.
Proof. by exists [::], [:: LookupTable 1 1 [:: [:: PlonkVariable 0 0 false CConstant]]], 4%N; vm_compute. Qed.
End C28.
Print Assumptions C28_sum.
Print Assumptions C28_sorted_columns.
Print Assumptions C28_parts.
Print Assumptions C28_degrees.
Print Assumptions C28_empty_part_refuted.
Print Assumptions C28_empty_part_fails.
Print Assumptions C28_prover_stops.
Print Assumptions C28_oversized_refuted.
Print Assumptions C28_no_gates_refuted.

(** A gate with a linear input and a quadratic one, a table with two options, limit six: three parts. *)
Example C28_witness : let F := [fieldType of 'F_17] in
  let w i := expr_var [comRingType of F] (PlonkVariable i 0 false CWitness) in let k i := PlonkVariable i 0 false CConstant in
  let gates := [:: LookupGate [:: LookupConstraint 1 [:: w 0%N]; LookupConstraint 1 [:: e_mul (w 0%N) (w 1%N)]] 0] in
  let tables := [:: LookupTable 1 1 [:: [:: k 0%N]; [:: k 1%N]]] in
  [/\ item_costs gates tables = [:: 2; 3; 3; 3]%N, fits gates tables 6 &
    lookup_parts gates tables 6 = [:: 2; 1; 1]%N].
Proof. by split; [vm_compute|move=> c; apply/allP: c; vm_compute|vm_compute]. Qed.
