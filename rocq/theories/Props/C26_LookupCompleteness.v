(** C26: the lookup argument is complete. *)
From Coq Require Import NArith.
From mathcomp Require Import all_ssreflect all_algebra.
From Verif.Model Require Import Base HashMap OrderedMap Expression PlonkVariable PlonkTable PermutationArgument GatesArgument LookupArgument.
From Verif.Spec Require Import LookupSpec.
From Verif.Proofs Require Import NatTac FieldTac KzgProofs PermProofs ExprProofs PermArgProofs GatesProofs LookupSortProofs LookupProofs.
From Verif.Props Require Import C15_CachedEvaluation C22_PermutationCompleteness C24_PermutationAgreement C25_LookupSorting C28_LookupParts C29_GatesArgument.
Set Implicit Arguments.
Unset Strict Implicit.
Unset Printing Implicit Defensive.
Import GRing.Theory.
Local Open Scope ring_scope.

(** ** Specification *)
Section Spec.
Variables (F : fieldType) (gates : seq (lookup_gate F)) (tables : seq lookup_table) (t : plonk_table F) (usable : nat).
(** the cell of row [j] of a selector or constant column *)
Definition sel (i j : nat) : F := nth 0 (nth [::] (pu_selectors (pt_public t)) i) j.
Definition const (i j : nat) : F := nth 0 (nth [::] (pu_constants (pt_public t)) i) j.

(** the options of all tables, in order: the number of the table (from one), its selector column, the option's columns *)
Definition numbered (k : nat) (ts : seq lookup_table) : seq (nat * nat * seq nat) :=
  flatten [seq [seq (x.1, lt_tag_index x.2, [seq pv_index v | v <- o]) | o <- lt_lookup_options x.2] | x <- zip (iota k (size ts)) ts].
Definition options := numbered 1 tables.
(** Row [j] of an option: the table number and the values of the option's columns if the row is selected, else nothing. *)
Definition option_row (x : nat * nat * seq nat) (j : nat) : seq F :=
  if sel x.1.2 j == 1 then x.1.1%:R :: [seq const i j | i <- x.2] else [::].
Definition option_rows (x : nat * nat * seq nat) : seq (seq F) := [seq option_row x j | j <- iota 0 usable].
Definition table_rows : seq (seq F) := flatten [seq option_rows x | x <- options].
(** Row [j] of a lookup constraint: the number of the table and the values of the inputs if the row is selected. *)
Definition input_row (g : lookup_gate F) (c : lookup_constraint F) (j : nat) : option (seq F) :=
  if sel (lg_tag_index g) j == 1 then omap (fun xs => (lc_table_id c)%:R :: xs) (omapM (fun e => row_evaluate e j t) (lc_lookup_input c))
  else Some [::].

(** Every lookup holds: on each usable row the inputs of a selected lookup form a row of the tables. *)
Definition lookups_hold : Prop := forall g c j, List.In g gates -> List.In c (lg_constraints g) -> (j < usable)%N ->
  exists2 r, input_row g c j = Some r & r \in table_rows.
(** The documented layout of the tables: there is an option, row 0 is not selected, equal rows are together. *)
Definition tables_laid_out : Prop :=
  [/\ options != [::], forall x, x \in options -> sel x.1.2 0 = 0 & contiguous_but [::] table_rows].
(** The columns exist, the options have as many columns as their table, selectors are zero or one. *)
Definition lookup_columns : Prop :=
  [/\ forall g, List.In g gates -> isSome (selector t (lg_tag_index g)),
      forall g c e v, List.In g gates -> List.In c (lg_constraints g) -> List.In e (lc_lookup_input c) -> v \in for_each_variable e -> isSome (variable_column t v),
      forall tb, List.In tb tables -> isSome (selector t (lt_tag_index tb)) &
      forall tb o, List.In tb tables -> o \in lt_lookup_options tb -> size o = lt_columns_number tb /\ forall v, v \in o -> isSome (constant t (pv_index v))].
Definition boolean_selectors : Prop := 
  (forall g j, List.In g gates -> (j < usable)%N -> sel (lg_tag_index g) j \in [:: 0; 1]) /\
  (forall tb j, List.In tb tables -> (j < usable)%N -> sel (lt_tag_index tb) j \in [:: 0; 1]).

(** The challenge [theta] compresses a row [[:: x0; x1; ...]] to x0 + x1 theta + x2 theta^2 + ...; it separates the rows if
    different rows are compressed to different values (the empty row is compressed to zero). *)
Definition code (theta : F) (r : seq F) : F := \sum_(m < size r) nth 0 r m * theta ^+ m.
Definition separates (theta : F) : Prop := forall r r', r \in [::] :: table_rows -> r' \in [::] :: table_rows ->
  code theta r = code theta r' -> r = r'.
(** No denominator of the grand product vanishes: for adjacent rows of an option (with an empty row after the last usable
    row), and for a row and itself. *)
Definition denominator (beta gamma a b : F) : F := (1 + beta) * gamma + a + beta * b.
Definition nondegenerate (theta beta gamma : F) : Prop :=
  (forall x p, x \in options -> p \in pairs (rcons [seq code theta r | r <- option_rows x] 0) -> denominator beta gamma p.1 p.2 != 0) /\
  (forall r, r \in table_rows -> denominator beta gamma (code theta r) (code theta r) != 0).
End Spec.

Section C26.
Variables (F : fieldType) (omega : F) (rows usable : nat).
Hypotheses (prim : rows.-primitive_root omega) (u0 : (0 < usable)%N) (ur : (usable < rows)%N).
Notation dfs := (dfs_of_values omega rows).
Notation values := (values_on_domain omega rows).
Implicit Types (gates : seq (lookup_gate F)) (tables : seq lookup_table) (t : plonk_table F) (pt : polynomial_table F).
Add Field Ff_c26 : (@ffield_theory F).

Lemma codeE (theta : F) r : code theta r = horner_rec r theta.
Proof.
rewrite /code; elim: r => [|x r ih] /=; first by rewrite big_ord0.
rewrite big_ord_recl expr0 mulr1 addrC -ih mulr_suml; congr (_ + _); apply: eq_bigr => i _.
by rewrite /= exprSr mulrA.
Qed.
Lemma compressE (R : comRingType) (tag theta v : R) xs : compress tag theta v xs = v + tag * (horner_rec xs theta * theta).
Proof.
rewrite /compress; suff H acc : (foldl (fun st x => (st.1 + st.2 * tag * x, st.2 * theta)) (v, acc) xs).1 = v + tag * (horner_rec xs theta * acc) by exact: H.
elim: xs v acc => [|x xs ih] v acc /=; first by rewrite mul0r mulr0 addr0.
rewrite ih -addrA; congr (v + _); rewrite mulrDl mulrDr addrC; congr (_ + _).
  by rewrite -[_ * theta * acc]mulrA [theta * acc]mulrC.
by rewrite [acc * tag]mulrC -mulrA [acc * x]mulrC.
Qed.
Lemma compress_code (tag theta : F) n xs : compress tag theta (tag * n%:R) xs = tag * code theta (n%:R :: xs).
Proof. by rewrite compressE codeE /= mulrDr addrC. Qed.
Lemma compress_at (tag theta v : {poly F}) xs y : (compress tag theta v xs).[y] = compress tag.[y] theta.[y] v.[y] [seq x.[y] | x <- xs].
Proof.
rewrite !compressE hornerD !hornerM; congr (_ + _ * (_ * _)).
by elim: xs => [|x xs ih] /=; rewrite ?horner0 // hornerD hornerM ih.
Qed.

(** polynomials of the columns *)
Lemma columnsE cols r : omapM (column_polynomial_dfs omega rows) cols = Some r ->
  r = [seq dfs c | c <- cols].
Proof.
elim: cols r => [|c cols ih] r /=; first by case=> <-.
rewrite {1}/column_polynomial_dfs; case: eqP => //= _; case e : (omapM _ _) => [r'|] //= [<-]; by rewrite (ih r').
Qed.
Lemma vget_map (A B : Type) (f : A -> B) s i : vget [seq f x | x <- s] i = omap f (vget s i).
Proof. by elim: s i => [|x s ih] [|i] //=. Qed.
Lemma vget_is (A : Type) (d : A) s i : isSome (vget s i) -> vget s i = Some (nth d s i).
Proof. by elim: s i => [|x s ih] [|i] //=; apply: ih. Qed.
Lemma selectorsE t pt i : polynomials_of_table omega rows t = Some pt -> isSome (selector t i) ->
  exists2 p, vget (pl_selectors pt) i = Some p & forall j, (j < rows)%N -> p.[omega ^+ j] = sel t i j.
Proof.
rewrite /polynomials_of_table /selector; case: (omapM _ (pr_witnesses _)) => [w|] //=; case: (omapM _ (pu_public_inputs _)) => [p|] //=.
case: (omapM _ (pu_constants _)) => [c|] //=; case es : (omapM _ (pu_selectors _)) => [sl|] //= [<-] /= h.
rewrite (columnsE es) vget_map (vget_is [::] h) /=; eexists; first by [].
by move=> j hj; rewrite dfs_at.
Qed.
Lemma constantsE t pt i : polynomials_of_table omega rows t = Some pt -> isSome (constant t i) ->
  exists2 p, vget (pl_constants pt) i = Some p & forall j, (j < rows)%N -> p.[omega ^+ j] = const t i j.
Proof.
rewrite /polynomials_of_table /constant; case: (omapM _ (pr_witnesses _)) => [w|] //=; case: (omapM _ (pu_public_inputs _)) => [p|] //=.
case ec : (omapM _ (pu_constants _)) => [c|] //=; case es : (omapM _ (pu_selectors _)) => [sl|] //= [<-] /= h.
rewrite (columnsE ec) vget_map (vget_is [::] h) /=; eexists; first by [].
by move=> j hj; rewrite dfs_at.
Qed.
Lemma option_columnsE t pt tb o : polynomials_of_table omega rows t = Some pt -> size o = lt_columns_number tb ->
  (forall v, v \in o -> isSome (constant t (pv_index v))) ->
  exists2 cols, option_columns pt tb o = Some cols &
    forall j, (j < rows)%N -> [seq c.[omega ^+ j] | c <- cols] = [seq const t (pv_index v) j | v <- o].
Proof.
move=> hp ho hc; rewrite /option_columns -ho.
have : forall v, v \in o -> exists2 p, vget (pl_constants pt) (pv_index v) = Some p & forall j, (j < rows)%N -> p.[omega ^+ j] = const t (pv_index v) j.
  by move=> v /hc; exact: constantsE.
have -> : omapM (fun i => olet v <- vget o i; vget (pl_constants pt) (pv_index v)) (iota 0 (size o)) =
    omapM (fun v => vget (pl_constants pt) (pv_index v)) o.
  have H k : omapM (fun i => olet v <- vget (nseq k (PlonkVariable 0 0 false CWitness) ++ o) i; vget (pl_constants pt) (pv_index v)) (iota k (size o)) =
      omapM (fun v => vget (pl_constants pt) (pv_index v)) o.
    have e2 : forall (pre : seq plonk_variable), size pre = k ->
      omapM (fun i => olet v <- vget (pre ++ o) i; vget (pl_constants pt) (pv_index v)) (iota k (size o)) =
      omapM (fun v => vget (pl_constants pt) (pv_index v)) o.
      elim: o {ho hc} k => [|v o ih] k pre hk //=.
      have -> : vget (pre ++ v :: o) k = Some v by rewrite -hk; elim: (pre).
      rewrite /= -cat_rcons ih ?size_rcons ?hk //.
    by apply: e2; rewrite size_nseq.
  exact: (H 0%N).
elim: o {ho hc} => [|v o ih] h /=; first by exists [::].
have [p -> hpj] := h v (mem_head _ _); have [|cols -> hcols] /= := ih; first by move=> v' hv'; apply: h; rewrite inE hv' orbT.
by eexists; first by []; move=> j hj /=; rewrite hpj // hcols.
Qed.

(** the compressed tables *)
Lemma prepare_values t pt theta k tables : polynomials_of_table omega rows t = Some pt ->
  (forall tb, List.In tb tables -> isSome (selector t (lt_tag_index tb))) ->
  (forall tb o, List.In tb tables -> o \in lt_lookup_options tb -> size o = lt_columns_number tb /\ forall v, v \in o -> isSome (constant t (pv_index v))) ->
  (forall tb j, List.In tb tables -> (j < usable)%N -> sel t (lt_tag_index tb) j \in [:: 0; 1]) ->
  exists2 lv, prepare_lookup_value pt theta (mask omega rows usable) k tables = Some lv &
    [seq values p | p <- lv] = [seq [seq (if (j < usable)%N then code theta (option_row t x j) else 0) | j <- iota 0 rows] | x <- numbered k.+1 tables].
Proof.
move=> hp; elim: tables k => [|tb tables ih] k h1 h2 h3; first by exists [::].
have [lv' e1 e2] := ih k.+1 (fun tb' h => h1 tb' (or_intror h)) (fun tb' o h => h2 tb' o (or_intror h)) (fun tb' j h => h3 tb' j (or_intror h)).
have [tag e3 e4] := selectorsE hp (h1 tb (or_introl erefl)); rewrite /= e3 e1 /=.
suff [vs -> e5] : exists2 vs, omapM (fun o => olet cols <- option_columns pt tb o;
      Some (compress tag theta%:P (k.+1%:R *: tag) cols * mask omega rows usable)) (lt_lookup_options tb) = Some vs &
    [seq values p | p <- vs] = [seq [seq (if (j < usable)%N then code theta (option_row t (k.+1, lt_tag_index tb, [seq pv_index v | v <- o]) j) else 0) | j <- iota 0 rows] | o <- lt_lookup_options tb].
  by eexists; first by []; rewrite map_cat e2 e5 /numbered /= map_cat -map_comp.
have {}h2 := h2 tb _ (or_introl erefl); have {}h3 := h3 tb _ (or_introl erefl).
elim: (lt_lookup_options tb) h2 => [|o os iho] h2; first by exists [::].
have [|vs e5 e6] := iho; first by move=> o' ho'; apply: h2; rewrite inE ho' orbT.
have [ho1 ho2] := h2 o (mem_head _ _); have [cols ec ecj] := option_columnsE hp ho1 ho2.
rewrite /= ec /= e5 /=; eexists; first by [].
rewrite /= e6; congr (_ :: _); rewrite /values_on_domain /basic_domain -map_comp; apply/eq_in_map => j; rewrite mem_iota add0n /= => hj.
rewrite hornerM mask_at // compress_at ecj // hornerC hornerZ e4 //.
case: ltnP => hju; rewrite ?mulr0 ?mulr1 // [_%:R * _]mulrC compress_code /option_row /=.
have := h3 j hju; rewrite !inE => /orP[] /eqP-> /=; last by rewrite eqxx mul1r -map_comp.
by rewrite mul0r eq_sym oner_eq0 codeE.
Qed.

(** the compressed inputs *)
Lemma input_polynomialE t pt (e : plonk_constraint F) : polynomials_of_table omega rows t = Some pt -> (rows %| 2 ^ 64)%N ->
  (forall v, v \in for_each_variable e -> isSome (variable_column t v)) ->
  exists2 p, input_polynomial omega pt e = Some p & forall j, row_evaluate e j t = Some p.[omega ^+ j].
Proof.
move=> hp hd hc; have hc' : all (fun v => isSome (variable_column t v)) (for_each_variable e) by apply/allP.
have hs : {in for_each_variable e, forall v, isSome (variable_value omega pt v)}.
  move=> v /(allP hc'); rewrite /variable_value (table_polynomial v hp); case ev : (variable_column t v) => [col|] //= _.
  by have [h1 _] := column_size hp ev; rewrite /column_polynomial_dfs h1 eqxx.
have hs' : all (fun v => isSome (variable_value omega pt v)) (for_each_variable e) by apply/allP.
rewrite /input_polynomial (@vars_convert _ _ [comRingType of {poly F}] polyC _ e hs') /=.
have [st [est _]] := C15_fresh (val omega pt) (convert_expr id polyC e : expr [eqType of plonk_variable] [comRingType of {poly F}]).
rewrite [cached_evaluate _ _ _]est /=; eexists; first by [].
move=> j; have [p] := C29_row_value prim j hp hd hc'; rewrite /polynomial_evaluate /evaluate_opt.
by case: ifP => // _ [<-].
Qed.
Lemma prepare_inputs gates tables t pt theta : polynomials_of_table omega rows t = Some pt -> (rows %| 2 ^ 64)%N ->
  (forall g, List.In g gates -> isSome (selector t (lg_tag_index g))) ->
  (forall g c e v, List.In g gates -> List.In c (lg_constraints g) -> List.In e (lc_lookup_input c) -> v \in for_each_variable e -> isSome (variable_column t v)) ->
  (forall g j, List.In g gates -> (j < usable)%N -> sel t (lg_tag_index g) j \in [:: 0; 1]) ->
  lookups_hold gates tables t usable ->
  exists2 li, prepare_lookup_input omega pt theta gates = Some li &
    size li = lookup_constraints_num gates /\
    forall p j, p \in li -> (j < usable)%N -> p.[omega ^+ j] \in [seq code theta r | r <- table_rows tables t usable].
Proof.
move=> hp hd; elim: gates => [|g gates ih] h1 h2 h3 h4; first by exists [::].
have [li e1 [e2 e2']] := ih (fun g' h => h1 g' (or_intror h)) (fun g' c e v h => h2 g' c e v (or_intror h)) (fun g' j h => h3 g' j (or_intror h))
  (fun g' c j h => h4 g' c j (or_intror h)).
have [s e3 e4] := selectorsE hp (h1 g (or_introl erefl)); rewrite /= e3 e1 /=.
have {}h2 := fun c e v => h2 g c e v (or_introl erefl); have {}h3 := h3 g _ (or_introl erefl); have {}h4 := h4 g _ _ (or_introl erefl).
suff [ls -> [e5 e6]] : exists2 ls, omapM (fun c => olet xs <- omapM (input_polynomial omega pt) (lc_lookup_input c);
      Some (compress s theta%:P ((lc_table_id c)%:R *: s) xs)) (lg_constraints g) = Some ls &
    size ls = size (lg_constraints g) /\
    forall p j, p \in ls -> (j < usable)%N -> p.[omega ^+ j] \in [seq code theta r | r <- table_rows tables t usable].
  by eexists; first by []; rewrite size_cat e2 e5; split=> // p j; rewrite mem_cat => /orP[/e6|/e2']; apply.
elim: (lg_constraints g) h2 h4 => [|c cs ihc] h2 h4; first by exists [::].
have [||ls e5 [e6 e6']] := ihc; [by move=> c' e v hc'; apply: h2; right|by move=> c' j hc'; apply: h4; right|].
suff [xs ex exj] : exists2 xs, omapM (input_polynomial omega pt) (lc_lookup_input c) = Some xs &
    forall j, omapM (fun e => row_evaluate e j t) (lc_lookup_input c) = Some [seq x.[omega ^+ j] | x <- xs].
  rewrite /= ex /= e5 /=; eexists; first by []; split; first by rewrite /= e6.
  move=> p j; rewrite inE => /orP[/eqP->|hin] hj; last exact: e6'.
  have hjr := ltn_trans hj ur; have [r hr hrt] := h4 c j (or_introl erefl) hj.
  apply/mapP; exists r => //; move: hr; rewrite /input_row exj /= compress_at hornerC hornerZ e4 // [_%:R * _]mulrC compress_code.
  have := h3 j hj; rewrite !inE => /orP[] /eqP->; last by rewrite eqxx mul1r => -[<-].
  by rewrite mul0r eq_sym oner_eq0 => -[<-]; rewrite codeE.
have {}h2 := fun e v => h2 c e v (or_introl erefl).
elim: (lc_lookup_input c) h2 => [|e es ihe] h2; first by exists [::].
have [|xs ex exj] := ihe; first by move=> e' v he'; apply: h2; right.
have [|p epo hpj] := @input_polynomialE t pt e hp hd; first by move=> v; apply: h2; left.
by rewrite /= epo ex /=; eexists; first by []; move=> j; rewrite /= hpj exj.
Qed.

(** ** The grand product *)
Section GrandProduct.
Variables (li lv : seq {poly F}) (beta gamma : F) (sorted : seq (seq F)).
Notation ins := [seq values p | p <- li].
Notation vals := [seq values p | p <- lv].
Let pf (p : F * F) : F := denominator beta gamma p.1 p.2.
Hypotheses (hs : forall c, c \in sorted -> size c = rows) (hend : forall p, p \in lv -> p.[omega ^+ usable] = 0).
Hypothesis hpairs : perm_eq (sorted_pairs usable sorted) (table_pairs usable vals ++ [seq (x, x) | x <- usable_cells usable ins]).
Notation V_g := (V_L_g ins vals beta gamma).
Notation V_h := (V_L_h sorted beta gamma).
Notation ss := [seq dfs s | s <- sorted].

Lemma nth_values (p : {poly F}) j : (j < rows)%N -> nth 0 (values p) j = p.[omega ^+ j].
Proof. by move=> h; rewrite /values_on_domain (nth_map 0) ?size_domain // nth_domain. Qed.
Lemma size_values (p : {poly F}) : size (values p) = rows.
Proof. by rewrite size_map size_domain. Qed.
Lemma V_gE k : (k.+1 < rows)%N -> V_g k.+1 = \prod_(f <- g_factors omega li lv beta gamma) f.[omega ^+ k].
Proof.
move=> hk; have hk' := ltn_trans (ltnSn k) hk; rewrite /V_L_g /g_factors big_cat !big_map subn1 /= size_map.
have H1 a : foldl (fun a r => a * (gamma + nth 0 r k)) a ins = a * \prod_(p <- li) (gamma + p.[omega ^+ k]).
  by elim: li a => [|p ps ih] a /=; rewrite ?big_nil ?mulr1 // ih big_cons nth_values // mulrA.
have H2 a : foldl (fun a r => a * ((1 + beta) * gamma + nth 0 r k + beta * nth 0 r k.+1)) a vals =
    a * \prod_(p <- lv) ((1 + beta) * gamma + p.[omega ^+ k] + beta * p.[omega ^+ k.+1]).
  by elim: lv a => [|p ps ih] a /=; rewrite ?big_nil ?mulr1 // ih big_cons !nth_values // mulrA.
rewrite H1 H2; congr (_ * _).
  elim: li => [|p ps ih]; first by rewrite !big_nil mulr1.
  rewrite !big_cons -ih exprS hornerZ hornerD hornerC -!mulrA; congr (_ * _); rewrite mulrCA; congr (_ * _).
by apply: eq_bigr => p _; rewrite !hornerD hornerZ hornerC shift1_at -exprS.
Qed.
Lemma V_hE k : (k.+1 < rows)%N -> V_h k.+1 = \prod_(f <- h_factors omega ss beta gamma) f.[omega ^+ k].
Proof.
move=> hk; have hk' := ltn_trans (ltnSn k) hk; rewrite /V_L_h /h_factors !big_map subn1 /=.
have H a : foldl (fun a r => a * ((1 + beta) * gamma + nth 0 r k + beta * nth 0 r k.+1)) a sorted =
    a * \prod_(s <- sorted) ((1 + beta) * gamma + nth 0 s k + beta * nth 0 s k.+1).
  by elim: (sorted) a => [|p ps ih] a /=; rewrite ?big_nil ?mulr1 // ih big_cons mulrA.
rewrite H mul1r; apply: eq_bigr => s _; by rewrite !hornerD hornerZ hornerC shift1_at -exprS !dfs_at.
Qed.
Lemma nth_V_L v s n j : (j < n)%N -> nth 0 (v :: V_L_loop sorted ins vals beta gamma v (iota s n)) j.+1 =
  nth 0 (v :: V_L_loop sorted ins vals beta gamma v (iota s n)) j * V_g (s + j)%N * (V_h (s + j)%N)^-1.
Proof.
elim: n v s j => [|n ih] v s [|j] //= hj; first by rewrite addn0.
by rewrite [LHS](ih _ _ _ hj) addSnnS.
Qed.
Lemma V_L_closes n : (n <= usable)%N -> nth 0 (1 :: V_L_loop sorted ins vals beta gamma 1 (iota 1 usable)) n =
  \prod_(k <- iota 0 n) (V_g k.+1 / V_h k.+1).
Proof.
elim: n => [|n ih] hn; first by rewrite big_nil.
by rewrite nth_V_L // ih ?(ltnW hn) // -(addn1 n) iotaD big_cat big_seq1 /= add1n mulrA.
Qed.
Lemma prod_pairs (c : seq F) : (usable < size c)%N ->
  \prod_(k <- iota 0 usable) pf (nth 0 c k, nth 0 c k.+1) = \prod_(p <- pairs (take usable.+1 c)) pf p.
Proof.
move=> hc; rewrite (big_nth (0, 0)) size_pairs size_takel //= /index_iota subn0 big_seq [RHS]big_seq; apply: eq_bigr => k.
by rewrite mem_iota add0n => hk; rewrite nth_pairs ?size_takel // !nth_take // ltnW.
Qed.
Lemma prod_flatten (A B : Type) (f : A -> seq B) (h : B -> F) s : \prod_(x <- flatten [seq f y | y <- s]) h x = \prod_(y <- s) \prod_(x <- f y) h x.
Proof. by elim: s => [|y s ih] /=; rewrite ?big_nil // big_cat big_cons ih. Qed.
Lemma prod_h : \prod_(k <- iota 0 usable) V_h k.+1 = \prod_(p <- sorted_pairs usable sorted) pf p.
Proof.
rewrite /sorted_pairs prod_flatten.
transitivity (\prod_(k <- iota 0 usable) \prod_(s <- sorted) pf (nth 0 s k, nth 0 s k.+1)).
  rewrite big_seq [RHS]big_seq; apply: eq_bigr => k; rewrite mem_iota add0n /= => hk.
  have hk1 : (k.+1 < rows)%N by apply: leq_ltn_trans ur.
  by rewrite V_hE // !big_map; apply: eq_bigr => s _; rewrite !hornerD hornerZ hornerC shift1_at -exprS !dfs_at // ltnW.
rewrite exchange_big /= big_seq [RHS]big_seq; apply: eq_bigr => s hsi; by rewrite prod_pairs // hs.
Qed.
Lemma take_values p : p \in lv -> take usable.+1 (values p) = rcons (take usable (values p)) 0.
Proof. by move=> h; rewrite (take_nth 0) ?size_values // nth_values // hend. Qed.
Lemma prod_g : \prod_(k <- iota 0 usable) V_g k.+1 =
  \prod_(p <- table_pairs usable vals ++ [seq (x, x) | x <- usable_cells usable ins]) pf p.
Proof.
rewrite big_cat big_map /table_pairs /usable_cells -!map_comp !prod_flatten /= mulrC.
transitivity (\prod_(k <- iota 0 usable) ((\prod_(p <- li) pf (p.[omega ^+ k], p.[omega ^+ k])) * \prod_(p <- lv) pf (p.[omega ^+ k], p.[omega ^+ k.+1]))).
  rewrite big_seq [RHS]big_seq; apply: eq_bigr => k; rewrite mem_iota add0n /= => hk.
  have hk1 : (k.+1 < rows)%N by apply: leq_ltn_trans ur.
  rewrite V_gE // big_cat !big_map /=; congr (_ * _); apply: eq_bigr => p _.
    rewrite hornerZ hornerD hornerC /pf /denominator /=; fring F.
  by rewrite !hornerD hornerZ hornerC shift1_at -exprS.
rewrite big_split /=; congr (_ * _); rewrite exchange_big /=.
  apply: eq_bigr => p _; rewrite (big_nth 0) size_takel ?size_values ?(ltnW ur) // /index_iota subn0 big_seq [RHS]big_seq; apply: eq_bigr => k.
  by rewrite mem_iota add0n => hk; rewrite nth_take // nth_values // (ltn_trans hk).
rewrite big_seq [RHS]big_seq; apply: eq_bigr => p hp; rewrite -take_values // -prod_pairs ?size_values //.
rewrite big_seq [RHS]big_seq; apply: eq_bigr => k; rewrite mem_iota add0n => hk; rewrite !nth_values // ?(ltn_trans hk) //.
by apply: leq_ltn_trans ur.
Qed.
Lemma V_L_end : (forall p, p \in sorted_pairs usable sorted -> pf p != 0) ->
  nth 0 (1 :: V_L_loop sorted ins vals beta gamma 1 (iota 1 usable)) usable = 1.
Proof.
move=> hnz; rewrite V_L_closes // big_split /= prodfV prod_g prod_h (perm_big _ hpairs) divff //.
by rewrite -(perm_big _ hpairs) prodf_seq_neq0; apply/allP => p hp; apply: hnz.
Qed.
Lemma V_h_neq0 k : (k < usable)%N -> (forall p, p \in sorted_pairs usable sorted -> pf p != 0) ->
  forall f, f \in h_factors omega ss beta gamma -> f.[omega ^+ k] != 0.
Proof.
move=> hk hnz f /mapP[q /mapP[s hsi ->] ->].
have hk1 : (k.+1 < rows)%N by apply: leq_ltn_trans ur.
rewrite !hornerD hornerZ hornerC shift1_at -exprS !dfs_at ?(ltnW hk1) //.
apply: (hnz (nth 0 s k, nth 0 s k.+1)); apply/flattenP; exists (pairs (take usable.+1 s)); first by apply/mapP; exists s.
have hsz : (k.+1 < size (take usable.+1 s))%N by rewrite size_takel ?hs // ltnS.
rewrite -[(_, _)](_ : nth (0, 0) (pairs (take usable.+1 s)) k = _); last by rewrite nth_pairs // !nth_take // ltnW.
by apply: mem_nth; rewrite size_pairs; case: (size _) hsz.
Qed.
End GrandProduct.

(** ** Layout of the compressed tables *)
Notation tvals tables t theta := [seq [seq (if (j < usable)%N then code theta (option_row t x j) else 0) | j <- iota 0 rows] | x <- options tables].
Lemma take_tval t theta x : take usable [seq (if (j < usable)%N then code theta (option_row t x j) else 0) | j <- iota 0 rows] =
  [seq code theta r | r <- option_rows t usable x].
Proof.
rewrite -map_take take_iota (minn_idPl (ltnW ur)) /option_rows -map_comp; apply/eq_in_map => j.
by rewrite mem_iota add0n /= => ->.
Qed.
Lemma tcells tables t theta : usable_cells usable (tvals tables t theta) = [seq code theta r | r <- table_rows tables t usable].
Proof.
rewrite /usable_cells /table_rows; elim: (options tables) => //= x xs ih; by rewrite map_cat -ih take_tval.
Qed.
Lemma contiguous_code tables t theta : contiguous_but [::] (table_rows tables t usable) -> separates tables t usable theta ->
  contiguous [seq code theta r | r <- table_rows tables t usable].
Proof.
move=> h hsep i k j hik hkj; rewrite size_map => hj.
have hk := leq_ltn_trans hkj hj; have hi := leq_ltn_trans hik hk.
rewrite !(nth_map [::]) // => e hne.
have mem n : (n < size (table_rows tables t usable))%N -> nth [::] (table_rows tables t usable) n \in [::] :: table_rows tables t usable.
  by move=> hn; rewrite inE mem_nth ?orbT.
rewrite (h i k j) //; first by apply: hsep e; apply: mem.
by apply: contraNneq hne => ->; rewrite codeE.
Qed.
Lemma tlayout tables t theta : tables_laid_out tables t usable -> separates tables t usable theta -> table_layout usable (tvals tables t theta).
Proof.
move=> [h1 h2 h3] hsep; split.
- by case: (options tables) h1.
- move=> c /mapP[x hx ->]; rewrite (nth_map 0%N) ?size_iota ?(leq_ltn_trans _ ur) // nth_iota ?(leq_ltn_trans _ ur) // u0 addn0.
  by rewrite /option_row h2 // eq_sym oner_eq0 codeE.
by rewrite tcells; apply: contiguous_code.
Qed.
Lemma parts_ok gates tables max : size gates != 0%N -> (max = 0%N \/ fits gates tables max) -> options tables != [::] ->
  all (fun p => 0 < p)%N (lookup_parts gates tables max) /\
  sumn (lookup_parts gates tables max) = (lookup_constraints_num gates + lookup_options_num tables)%N.
Proof.
move=> hg hm ho; rewrite C28_sorted_columns // /sorted_lookup_columns_number (negbTE hg) addnC; split=> //.
have hso : (0 < lookup_options_num tables)%N.
  have <- : size (options tables) = lookup_options_num tables.
    rewrite /options /numbered size_flatten /shape -map_comp /lookup_options_num; congr sumn.
    by elim: (tables) 1%N {ho} => //= tb tbs ih k; rewrite ih /= size_map.
  by case: (options tables) ho.
case: (eqVneq max 0%N) hm => [-> _|hm0 [e|hm]]; last 2 first.
- by rewrite e eqxx in hm0.
- have hne : item_costs gates tables != [::].
    by rewrite -size_eq0 (size_costs gates tables) -lt0n addn_gt0 hso orbT.
  have [_ h2 h3] := C28_parts hm0 hne hm; rewrite -h2 all_map; by apply/allP => x /h3 /andP[].
by rewrite lookup_partsE eqxx /= /sorted_lookup_columns_number (negbTE hg) addn_gt0 hso.
Qed.

Lemma zip_map2 (A B : Type) (f : A -> B) s u : zip [seq f x | x <- s] [seq f x | x <- u] = [seq (f p.1, f p.2) | p <- zip s u].
Proof. by elim: s u => [|x s ih] [|y u] //=; rewrite ih. Qed.
Lemma in_adjacent (A : Type) (d : A) (s : seq A) x y : List.In (x, y) (zip (behead s) s) ->
  exists i, [/\ (i.+1 < size s)%N, x = nth d s i.+1 & y = nth d s i].
Proof.
case: s => [|a s] //=; elim: s a => [|b s ih] a //= -[[<- <-]|/ih[i [h1 -> ->]]]; first by exists 0%N.
by exists i.+1.
Qed.
Variables (T : Type) (challenge : T -> F * T) (C : Type) (absorb : T -> C -> T) (commit : seq {poly F} -> C).
(** The data that the preprocessor prepares for the lookup argument. *)
Definition preprocessed_lookup gates tables (max_quotient_chunks : nat) : lookup_data F :=
  LookupData gates tables (lagrange_polynomial omega rows usable) (selector_blind omega rows usable) (lagrange_polynomial omega rows 0)
    max_quotient_chunks usable.

(** For all constraint systems, tables and transcripts: if every lookup holds, the tables have the documented layout and the
    first challenge separates the rows, then the prover commits to sorted columns and, if no denominator vanishes for the
    two challenges it then receives, succeeds: the grand product is one at the last usable row and the four constraint
    polynomials vanish on every row. *)
Theorem C26_complete gates tables t pt max tr :
  polynomials_of_table omega rows t = Some pt -> (rows %| 2 ^ 64)%N ->
  lookup_columns gates tables t -> boolean_selectors gates tables t usable ->
  tables_laid_out tables t usable -> lookups_hold gates tables t usable ->
  size gates != 0%N -> (max = 0%N \/ fits gates tables max) ->
  let theta := (challenge tr).1 in
  separates tables t usable theta ->
  exists sorted, let tr2 := absorb (challenge tr).2 (commit sorted) in
    let beta := (challenge tr2).1 in let gamma := (challenge (challenge tr2).2).1 in
    nondegenerate tables t usable theta beta gamma ->
    exists res tr', [/\ lookup_prove_eval omega rows challenge absorb commit (preprocessed_lookup gates tables max) pt tr = Some (res, tr'),
      lr_sorted res = sorted /\ lr_commitment res = commit sorted,
      (lr_V_L res).[omega ^+ usable] = 1, size (lr_F res) = 4%N &
      forall f j, f \in lr_F res -> (j < rows)%N -> f.[omega ^+ j] = 0].
Proof.
move=> hp hd [c1 c2 c3 c4] [b1 b2] hlay hold hg hm theta hsep.
have [lv elv hlv] := prepare_values theta 0 hp c3 c4 b2.
have [li eli [sli hli]] := prepare_inputs theta hp hd c1 c2 b1 hold.
set vals := [seq values p | p <- lv]; set ins := [seq values p | p <- li].
have evals : vals = tvals tables t theta by exact: hlv.
have hsz c : c \in ins ++ vals -> size c = rows by rewrite mem_cat => /orP[] /mapP[p _ ->]; rewrite size_values.
have hin x : x \in usable_cells usable ins -> x \in usable_cells usable vals.
  rewrite evals tcells => /flattenP[c /mapP[c' /mapP[p hpi ->] ->]] /(nthP 0)[j]; rewrite size_takel ?size_values ?(ltnW ur) // => hj <-.
  by rewrite nth_take // nth_values ?(ltn_trans hj) //; apply: hli.
have hlay' : table_layout usable vals by rewrite evals; apply: tlayout.
have [sv [esv [ssv hsv] hchain [hcells _] hpairs]] := C25_sorted u0 ur hsz hlay' hin.
exists [seq dfs s | s <- sv] => tr2 beta gamma hnd.
have hend p : p \in lv -> p.[omega ^+ usable] = 0.
  move=> hpv; rewrite -nth_values //; have : values p \in vals by apply: map_f.
  by rewrite evals => /mapP[x _ ->]; rewrite (nth_map 0%N) ?size_iota // nth_iota // ltnn.
have hnz p : p \in sorted_pairs usable sv -> denominator beta gamma p.1 p.2 != 0.
  rewrite (perm_mem hpairs) mem_cat => /orP[/flattenP[s /mapP[c]]|/mapP[x hx ->]].
    rewrite evals => /mapP[x hx ->] ->; rewrite take_tval => hpp; exact: (proj1 hnd x p hx hpp).
  by have := hin x hx; rewrite evals tcells => /mapP[r hr ->]; apply: (proj2 hnd).
have svl : size lv = size (options tables) by rewrite -(size_map values) -/vals evals size_map.
have hso : size (options tables) = lookup_options_num tables.
  rewrite /options /numbered size_flatten /shape -map_comp /lookup_options_num; congr sumn.
  by elim: (tables) 1%N => //= tb tbs ih k; rewrite ih /= size_map.
have [hpos hsum] := parts_ok hg hm (let: And3 h _ _ := hlay in h).
have e1 : challenge tr = (theta, (challenge tr).2) by rewrite /theta; case: (challenge tr).
have e2 : challenge tr2 = (beta, (challenge tr2).2) by rewrite /beta; case: (challenge tr2).
have e3 : challenge (challenge tr2).2 = (gamma, (challenge (challenge tr2).2).2) by rewrite /gamma; case: (challenge _).
rewrite /lookup_prove_eval {1}e1 /= elv eli /= -/ins -/vals esv /= -/tr2 {1}e2 /= {1}e3 /=.
move: (challenge (challenge tr2).2).2 => tr3.
clearbody theta beta gamma tr2; clear elv eli e1 e2 e3.
have ssv' : size sv = (lookup_constraints_num gates + lookup_options_num tables)%N by rewrite ssv !size_map sli svl hso.
set parts := lookup_parts gates tables max in hpos hsum *.
have := size_draw challenge (size parts - 1) tr3; case: (draw _ _ _) => alphas tr4 /= hal.
rewrite /V_L_values ur /=.
set vl := 1 :: V_L_loop sv ins vals beta gamma 1 (iota 1 usable) ++ nseq (rows - usable.+1) 0.
rewrite size_map hsum ssv' eqxx /=.
rewrite !group_productsE //; last 2 first.
- by rewrite !size_map ssv'.
- by rewrite size_cat !size_map sli svl hso.
rewrite /=; set gf := g_factors _ _ _ _ _; set hf := h_factors _ _ _ _.
set gs := [seq \prod_(x <- s) x | s <- reshape parts gf]; set hs := [seq \prod_(x <- s) x | s <- reshape parts hf].
have sgs : size gs = size parts by rewrite size_map size_reshape.
have shs : size hs = size parts by rewrite size_map size_reshape.
have sgf : size gf = sumn parts by rewrite size_cat !size_map sli svl hso hsum.
have shf : size hf = sumn parts by rewrite !size_map ssv' hsum.
have prodE (ff : seq {poly F}) y : size ff = sumn parts -> \prod_(p <- [seq \prod_(x <- s) x | s <- reshape parts ff]) p.[y] = \prod_(f <- ff) f.[y].
  move=> hff; have {2}-> : ff = flatten (reshape parts ff) by rewrite reshapeKr // hff.
  rewrite big_map -[in RHS](map_id (reshape parts ff)) (prod_flatten id); apply: eq_bigr => s _; by rewrite horner_prod.
have hvl j : (j <= usable)%N -> nth 0 vl j = nth 0 (1 :: V_L_loop sv ins vals beta gamma 1 (iota 1 usable)) j.
  have hsl v s n : size (V_L_loop sv ins vals beta gamma v (iota s n)) = n by elim: n v s => //= n ih v s; rewrite ih.
  by case: j => [|j] //= hj; rewrite nth_cat hsl hj.
have svl' : size vl = rows.
  have hsl v s n : size (V_L_loop sv ins vals beta gamma v (iota s n)) = n by elim: n v s => //= n ih v s; rewrite ih.
  by rewrite /vl /= size_cat hsl size_nseq -addSn subnKC.
have vlS j : (j < usable)%N -> nth 0 vl j.+1 * \prod_(h <- hs) h.[omega ^+ j] = nth 0 vl j * \prod_(g <- gs) g.[omega ^+ j].
  move=> hj; have hj1 : (j.+1 < rows)%N by apply: leq_ltn_trans ur.
  rewrite !hvl // ?(ltnW hj) // nth_V_L // add1n (V_gE li lv) // V_hE // !prodE // divfK //.
  by rewrite prodf_seq_neq0; apply/allP => f hf'; apply: (V_h_neq0 hsv hj hnz).
have closes : nth 0 vl usable = 1 by rewrite hvl // (V_L_end hsv hend hpairs).
have Vj j : (j < rows)%N -> (dfs vl).[omega ^+ j] = nth 0 vl j by exact: dfs_at.
have r0 : (0 < rows)%N by exact: leq_ltn_trans ur.
have shiftj j : (j < usable)%N -> (polynomial_shift omega (dfs vl) 1).[omega ^+ j] = nth 0 vl j.+1.
  by move=> hj; rewrite shift1_at -exprS Vj //; exact: leq_ltn_trans hj ur.
have F0z j : (j < rows)%N -> (lagrange_polynomial omega rows 0 * (1 - dfs vl)).[omega ^+ j] = 0.
  move=> hj; rewrite hornerM lagrange_at_dom // hornerD hornerN horner_1.
  by case: eqP => [->|_]; rewrite ?mul0r // Vj // /= subrr mulr0.
have F1z j : (j < rows)%N -> (lagrange_polynomial omega rows usable * (dfs vl * dfs vl - dfs vl)).[omega ^+ j] = 0.
  move=> hj; rewrite hornerM lagrange_at_dom // hornerD hornerN hornerM.
  by case: eqP => [->|_]; rewrite ?mul0r // Vj // closes mulr1 subrr mulr0.
have masked j : (usable <= j)%N -> (j < rows)%N ->
    (lagrange_polynomial omega rows usable).[omega ^+ j] + (selector_blind omega rows usable).[omega ^+ j] = 1.
  move=> h hj; rewrite lagrange_at_dom // blind_at_dom //; move: h; rewrite leq_eqVlt => /orP[/eqP<-|h].
    by rewrite eqxx ltnn addr0.
  by rewrite h (gtn_eqF h) add0r.
have hVu : (dfs vl).[omega ^+ usable] = 1 by rewrite Vj.
have hp0 : (0 < size parts)%N.
  have : (0 < sumn parts)%N by rewrite hsum -hso addnC; case: hlay => + _ _; case: (options tables).
  by case: (parts).
have hpa : size parts = (size alphas).+1 by rewrite hal subn1 prednK.
have sv0 : (0 < size sv)%N.
  have : (0 < sumn parts)%N by clear - hp0 hpos; case: (parts) hp0 hpos => //= p ps _ /andP[h _]; rewrite addn_gt0 h.
  by rewrite hsum ssv'.
suff [fp -> hfp] : exists2 fp, (if size parts == 1%N then
      olet g <- vget gs 0; olet h <- vget hs 0;
      Some ((g * dfs vl - h * polynomial_shift omega (dfs vl) 1) * (lagrange_polynomial omega rows usable + selector_blind omega rows usable - 1), [::])
    else
      oguard size parts == size gs;
      oguard size parts == size hs;
      olet s <- perm_sum alphas gs hs [seq dfs v | v <- perm_parts omega usable (take (size parts - 1) gs) (take (size parts - 1) hs) vl] (dfs vl) (polynomial_shift omega (dfs vl) 1);
      Some (s * (lagrange_polynomial omega rows usable + selector_blind omega rows usable - 1), [seq dfs v | v <- perm_parts omega usable (take (size parts - 1) gs) (take (size parts - 1) hs) vl])) = Some fp &
    forall j, (j < rows)%N -> fp.1.[omega ^+ j] = 0.
  rewrite /= -ssv' -lt0n sv0 /=; have := size_draw challenge (size sv - 1) tr4; case: (draw _ _ _) => alphas3 tr5 /= hal3.
  do 2 eexists; split=> //=; move=> f j; rewrite !inE => /or4P[/eqP->|/eqP->|/eqP->|/eqP->] hj; [exact: F0z|exact: F1z|exact: hfp|].
  have hadj s s' : List.In (s, s') (zip (behead sv) sv) -> nth 0 s 0 = nth 0 s' usable /\ size s = rows /\ size s' = rows.
    move/(in_adjacent [::]) => [i [h1 -> ->]]; split; first by rewrite -hchain // ltnW.
    by split; apply: hsv; apply: mem_nth => //; rewrite ltnW.
  rewrite behead_map zip_map2; elim: (zip (behead sv) sv) alphas3 {hal3} hadj => [|[s s'] ps ihp] [|a alphas3] hadj; rewrite ?big_nil ?horner0 //= big_cons hornerD ihp; last first.
    by move=> s1 s1' h; apply: hadj; right.
  rewrite addr0 hornerM hornerZ lagrange_at_dom //; case: (eqVneq j 0%N) => [->|_]; last by rewrite !mulr0.
  have [h1 [h2 h3]] := hadj s s' (or_introl erefl).
  by rewrite hornerD hornerN shift_at /= mulr1 -[omega ^ _]/(omega ^+ usable) !dfs_at // h1 subrr mul0r.
clearbody vl; case: ifP => [/eqP hp1|hp1].
  move: (sgs) (shs) (fun j => vlS j); rewrite hp1; case: (gs) => [|g [|]] //= _; case: (hs) => [|h [|]] //= _ hvs.
  eexists; first by []; move=> j hj /=; rewrite hornerM !hornerD !hornerN horner_1 !hornerM.
  case: (ltnP j usable) => hju; last by rewrite masked // subrr mulr0.
  have := hvs j hju; rewrite !big_seq1 => e; by rewrite shiftj // Vj // [h.[_] * _]mulrC e [g.[_] * _]mulrC subrr mul0r.
rewrite sgs shs eqxx /=.
have [|||s es] := @perm_sum_some F alphas gs hs [seq dfs v | v <- perm_parts omega usable (take (size parts - 1) gs) (take (size parts - 1) hs) vl] (dfs vl) (polynomial_shift omega (dfs vl) 1); [by rewrite sgs|by rewrite shs| |].
  have hlt : (size parts - 1 <= size parts)%N by rewrite leq_subr.
  by rewrite size_map size_perm_parts ?size_takel ?shs ?sgs ?hal.
rewrite es /=; eexists; first by []; move=> j hj /=.
rewrite hornerM !hornerD hornerN horner_1; case: (ltnP j usable) => hju; last by rewrite masked // subrr mulr0.
suff -> : s.[omega ^+ j] = 0 by rewrite mul0r.
move: es; rewrite -hal => es.
apply: (perm_sum_zero prim hju (ltnW ur) _ _ svl' _ _ _ es); rewrite ?sgs ?shs //; first exact: Vj.
- move=> h hh'; have : \prod_(p <- hf) p.[omega ^+ j] != 0.
    by rewrite prodf_seq_neq0; apply/allP => f hf'; apply: (V_h_neq0 hsv hju hnz).
  by rewrite -prodE // prodf_seq_neq0 => /allP/(_ _ hh').
by rewrite shiftj // Vj // vlS.
Qed.
End C26.
Print Assumptions C26_complete.

(** ** How often the first challenge fails to separate the rows: at most as often as a polynomial of degree [w] has roots,
    once for each pair of rows. The tables must be fewer than the characteristic of the field. *)
Section Theta.
Variables (F : fieldType) (tables : seq lookup_table) (t : plonk_table F) (usable w : nat).
Hypotheses (hchar : forall k, (0 < k <= size tables)%N -> k%:R != 0 :> F)
  (hw : forall tb o, List.In tb tables -> o \in lt_lookup_options tb -> size o = lt_columns_number tb /\ (size o <= w)%N).

Lemma numberedP k ts x : (forall tb o, List.In tb ts -> o \in lt_lookup_options tb -> size o = lt_columns_number tb /\ (size o <= w)%N) ->
  x \in numbered k ts -> [/\ (k <= x.1.1 < k + size ts)%N, (size x.2 <= w)%N & exists2 tb, List.nth_error ts (x.1.1 - k) = Some tb & size x.2 = lt_columns_number tb].
Proof.
elim: ts k => [|tb ts ih] k h; first by [].
rewrite /numbered /= mem_cat => /orP[/mapP[o ho ->]|hx] /=.
  have [h1 h2] := h tb o (or_introl erefl) ho; rewrite leqnn size_map -[X in (X < _)%N]addn0 ltn_add2l; split=> //.
  by exists tb; rewrite ?subnn ?size_map.
have [|/andP[h1 h2] h3 [tb' h4 h5]] := ih k.+1 _ hx; first by move=> tb' o h'; apply: h; right.
split=> //; first by rewrite (ltnW h1) addnS.
by exists tb' => //; rewrite -(subnSK h1) /=.
Qed.
Lemma rowP r : r \in [::] :: table_rows tables t usable -> r = [::] \/
  exists k, [/\ (0 < k <= size tables)%N, (size r <= w.+1)%N & exists2 tb, List.nth_error tables (k - 1) = Some tb &
    exists2 xs, size xs = lt_columns_number tb & r = k%:R :: xs].
Proof.
rewrite inE => /orP[/eqP->|/flattenP[s /mapP[x hx ->] /mapP[j _ ->]]]; first by left.
have [/andP[h1 h2] h3 [tb h4 h5]] := numberedP hw hx; rewrite /option_row; case: ifP => _; [right|by left].
exists x.1.1; rewrite h1 /= size_map ltnS; split=> //.
by exists tb => //; eexists; last by []; rewrite size_map.
Qed.
Lemma inj_nat k k' : (0 < k <= size tables)%N -> (0 < k' <= size tables)%N -> k%:R = k'%:R :> F -> k = k'.
Proof.
wlog hle : k k' / (k <= k')%N.
  by move=> H h1 h2 e; case: (leqP k k') => h; [exact: H|apply/esym; apply: H => //; apply: ltnW].
move=> /andP[h1 h2] /andP[h3 h4] e; apply/eqP; rewrite eqn_leq hle /= leqNgt; apply/negP => hlt.
have : (k' - k)%N%:R != 0 :> F by apply: hchar; rewrite subn_gt0 hlt /= (leq_trans (leq_subr _ _) h4).
by rewrite natrB // e subrr eqxx.
Qed.
Lemma Poly_row r r' : r \in [::] :: table_rows tables t usable -> r' \in [::] :: table_rows tables t usable -> Poly r = Poly r' -> r = r'.
Proof.
move=> /rowP h /rowP h' e; have ec i : nth 0 r i = nth 0 r' i by rewrite -(coef_Poly r) -(coef_Poly r') e.
case: h h' => [e0|[k [hk _ [tb h1 [xs h2 h3]]]]] [e0'|[k' [hk' _ [tb' h1' [xs' h2' h3']]]]].
- by rewrite e0 e0'.
- by have := ec 0%N; rewrite h3' e0 /= => /esym/eqP; rewrite (negbTE (hchar hk')).
- by have := ec 0%N; rewrite h3 e0' /= => /eqP; rewrite (negbTE (hchar hk)).
have := ec 0%N; rewrite h3 h3' /= => /(inj_nat hk hk') ek.
move: h1'; rewrite -ek h1 => -[etb]; rewrite ek; congr (_ :: _); apply: (@eq_from_nth _ 0); first by rewrite h2 h2' etb.
by move=> i _; have := ec i.+1; rewrite h3 h3'.
Qed.
Theorem C26_theta (thetas : seq F) : uniq thetas -> ((size (table_rows tables t usable)).+1 ^ 2 * w < size thetas)%N ->
  exists2 theta, theta \in thetas & separates tables t usable theta.
Proof.
move=> hu hlt; set R := [::] :: table_rows tables t usable.
pose P : {poly F} := \prod_(x <- [seq (r, r') | r <- R, r' <- R] | x.1 != x.2) (Poly x.1 - Poly x.2).
have P0 : P != 0.
  rewrite prodf_seq_neq0; apply/allP => x /allpairsP[[r r'] [/= h1 h2 ->]] /=; apply/implyP => hne.
  by rewrite subr_eq0; apply: contraNneq hne => e; apply/eqP; apply: Poly_row e.
have szR r : r \in R -> (size (Poly r) <= w.+1)%N.
  move/rowP => [->|[k [_ h _]]]; first by rewrite /= size_poly0.
  exact: leq_trans (size_Poly _) h.
have hsz : (size P <= ((size R) ^ 2 * w).+1)%N.
  have -> : ((size R) ^ 2 = size [seq (r, r') | r <- R, r' <- R])%N by rewrite size_allpairs expnS expn1.
  rewrite /P; have : forall x, x \in [seq (r, r') | r <- R, r' <- R] -> x.1 \in R /\ x.2 \in R by move=> x /allpairsP[[r r'] [/= h1 h2 ->]].
  elim: ([seq _ | r <- R, r' <- R]) => [|x xs ih] h; first by rewrite big_nil size_poly1.
  rewrite big_cons; have hxs : forall y, y \in xs -> y \in x :: xs by move=> y hy; rewrite inE hy orbT.
  have {}ih := ih (fun y hy => h y (hxs y hy)); case: ifP => _; last by apply: leq_trans ih _; rewrite ltnS leq_mul2r /= leqnSn orbT.
  have [/szR h1 /szR h2] := h x (mem_head _ _).
  have h3 : (size (Poly x.1 - Poly x.2)%R <= w.+1)%N by apply: leq_trans (size_add _ _) _; rewrite size_opp geq_max h1.
  apply: leq_trans (size_mul_leq _ _) _; rewrite /= mulSn; move: (size _ * w)%N ih h3 => a; move: (size _) (size _) => b c; slia.
have /hasP[theta h1 h2] : has (fun x => ~~ root P x) thetas.
  rewrite has_predC; apply/negP => hall; have := max_poly_roots P0 hall hu; rewrite ltnNge => /negP; apply.
  by apply: leq_trans hsz _.
exists theta => // r r' hr hr' e; apply/eqP; apply: contraNT h2 => hne.
rewrite /root /P horner_prod prodf_seq_eq0; apply/hasP; exists (r, r'); first by apply/allpairsP; exists (r, r').
by rewrite /= hne hornerD hornerN !horner_Poly subr_eq0 -!codeE e eqxx.
Qed.
End Theta.
Print Assumptions C26_theta.

(** Four rows over F_17, three of them usable. The rows 1 and 2 of the table hold 5 and 6; the gate looks up the witness on
    the rows 0 and 1. *)
Section Witness.
Let F := [fieldType of 'F_17].
Let omega : F := 4%:R.
Definition witness_table := PlonkTable (PrivateTable [:: [:: 5; 6; 9; 9] : seq F])
  (PublicTable [::] [:: [:: 0; 5; 6; 0]] [:: [:: 1; 1; 0; 0]; [:: 0; 1; 1; 0]]).
Definition witness_constraint := LookupConstraint 1 [:: expr_var [comRingType of F] (PlonkVariable 0 0 true CWitness)].
Definition witness_gates := [:: LookupGate [:: witness_constraint] 0].
Definition witness_tables := [:: LookupTable 1 1 [:: [:: PlonkVariable 0 0 true CConstant]]].
Local Notation t := witness_table.
Local Notation gates := witness_gates.
Local Notation tables := witness_tables.
Lemma witness_rows : table_rows tables t 3 = [:: [::]; [:: 1; 5]; [:: 1; 6]].
Proof. by vm_decide. Qed.
Lemma witness_inputs j : (j < 3)%N -> exists2 r, input_row t (LookupGate [:: witness_constraint] 0) witness_constraint j = Some r & r \in [:: [::]; [:: 1; 5]; [:: 1; 6]].
Proof.
move=> hj; have hr : rotated_row 4 j 0%:Z = ((4 + j + 0) %% 4)%N.
  apply: rotated_row_pos => //; apply: (@leq_trans (2 ^ 4)%N); last by rewrite leq_exp2l.
  by move: hj; move: (2 ^ 4)%N (erefl : 16%N = 2 ^ 4)%N => ? <-; slia.
have e4 : rows_amount t = 4%N by [].
rewrite /input_row /row_evaluate e4; move: hr; move: (rotated_row 4 j) => f; rewrite -[0%:Z]/(0 : int) => hf.
rewrite /evaluate_opt /= /eval_term /= !hf; clear f hf.
by do 3 (case: j hj => [|j] hj; first by eexists; [reflexivity|vm_decide]).
Qed.
Lemma witness_root : 4.-primitive_root omega.
Proof.
apply/andP; split=> //; apply/forallP => -[i hi]; rewrite unity_rootE /=.
by do 4 (case: i hi => [|i] hi; first vm_decide).
Qed.
Lemma witness_columns : lookup_columns gates tables t.
Proof.
split.
+ by move=> g [<-|[]].
+ by move=> g c e v [<-|[]] // [<-|[]] // [<-|[]] //=; rewrite inE => /eqP->.
+ by move=> tb [<-|[]].
+ by move=> tb o [<-|[]] //; rewrite inE => /eqP->; split=> // v; rewrite inE => /eqP->.
Qed.
Lemma witness_boolean : boolean_selectors gates tables t 3.
Proof.
split; first by move=> g j [<-|[]] //; case: j => [|[|[|j]]] // _; vm_decide.
by move=> tb j [<-|[]] //; case: j => [|[|[|j]]] // _; vm_decide.
Qed.
Lemma witness_laid_out : tables_laid_out tables t 3.
Proof.
split=> //.
+ by move=> x; rewrite inE => /eqP->.
+ by rewrite witness_rows => -[|[|[|i]]] [|[|[|k]]] [|[|[|j]]] // _ _ _ h; exfalso; move/eqP: h; apply/negP; vm_decide.
Qed.
Lemma witness_hold : lookups_hold gates tables t 3.
Proof.
move=> g c j [<-|[]] // [<-|[]] //; rewrite witness_rows => hj.
exact: witness_inputs.
Qed.
Lemma witness_separates : separates tables t 3 (3 : F).
Proof.
by move=> r r'; rewrite witness_rows !inE => /or4P[] /eqP-> /or4P[] /eqP-> //; rewrite !codeE => h; exfalso; move/eqP: h; apply/negP; vm_decide.
Qed.
Lemma witness_nondegenerate : nondegenerate tables t 3 (3 : F) 4 5.
Proof.
split.
  move=> x p; rewrite inE => /eqP->; rewrite /option_rows.
  have -> : [seq code (3 : F) r | r <- [seq option_row t (1, 1, [:: 0])%N j | j <- iota 0 3]] = [:: 0; 16%:R; 2].
    by rewrite /= !codeE; apply/eqP; vm_decide.
  have h : all (fun p : F * F => denominator 4 5 p.1 p.2 != 0) (pairs (rcons [:: 0; 16%:R; 2 : F] 0)) by vm_decide.
  exact: (allP h).
by move=> r; rewrite witness_rows !inE => /or3P[] /eqP->; rewrite !codeE; vm_decide.
Qed.
Example C26_witness :
  [/\ 4.-primitive_root omega /\ isSome (polynomials_of_table omega 4 t) /\ (4 %| 2 ^ 64)%N,
      lookup_columns gates tables t /\ boolean_selectors gates tables t 3,
      tables_laid_out tables t 3 /\ lookups_hold gates tables t 3,
      fits gates tables 4 /\ lookup_parts gates tables 4 = [:: 1; 1]%N &
      separates tables t 3 (3 : F) /\ nondegenerate tables t 3 (3 : F) 4 5].
Proof.
split.
- split; first exact: witness_root.
  by split; [vm_compute|rewrite -[4%N]/(2 ^ 2)%N; exact: dvdn_exp2l].
- by split; [exact: witness_columns|exact: witness_boolean].
- by split; [exact: witness_laid_out|exact: witness_hold].
- by split; [move=> c; apply/allP: c; vm_compute|vm_compute].
by split; [exact: witness_separates|exact: witness_nondegenerate].
Qed.
End Witness.
