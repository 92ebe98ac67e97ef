(** C29: the gates argument. *)
From Coq Require Import NArith Lia.
From mathcomp Require Import all_ssreflect all_algebra.
From Verif.Model Require Import Base HashMap OrderedMap Expression PlonkVariable PlonkTable PermutationArgument GatesArgument.
From Verif.Spec Require Import ExprSpec.
From Verif.Proofs Require Import NatTac FieldTac PermProofs MapProofs ExprProofs TableProofs PermArgProofs GatesProofs.
Set Implicit Arguments.
Unset Strict Implicit.
Unset Printing Implicit Defensive.
Import GRing.Theory.
Local Open Scope ring_scope.

Section C29.
Variables (F : fieldType) (omega : F) (T : Type) (challenge : T -> F * T).
Notation variable := [eqType of plonk_variable].
Implicit Types (t : polynomial_table F) (gates : seq (plonk_gate F)) (ev : evaluation_map F).

(** ** Specification *)
Definition selector_variable (i : nat) := PlonkVariable i 0 false CSelector.
(** the variables a gate mentions: its selector and those of its constraints *)
Definition gate_variables (g : plonk_gate F) : seq plonk_variable :=
  selector_variable (g_selector g) :: flatten [seq for_each_variable c | c <- g_constraints g].
(** the evaluation map holds, for the variable [v], the value of its column at [omega^rotation * y] *)
Definition opened t ev (y : F) (v : plonk_variable) : Prop :=
  exists2 p, variable_polynomial t v = Some p &
    hm_find (@eq_op [eqType of evaluation_key]) ev (pv_index v, pv_rotation v, pv_type v) = Some p.[omega ^ (pv_rotation v) * y].

Lemma evaluate_at (g : variable -> {poly F}) (c : expr variable F) y :
  (evaluate g (convert_expr id polyC c)).[y] = evaluate (fun v => (g v).[y]) c.
Proof.
elim: c => [u|b ih n|[] a iha b ihb] /=.
- by rewrite !eval_termE /= map_id hornerM hornerC horner_prod.
- by rewrite horner_exp ih.
- by rewrite e_add_val hornerD iha ihb.
- by rewrite hornerD hornerN iha ihb.
- by rewrite e_mul_val hornerM iha ihb.
Qed.
Lemma horner_rec_at (xs : seq {poly F}) (x y : F) : (horner_rec xs x%:P).[y] = horner_rec [seq p.[y] | p <- xs] x.
Proof. by elim: xs => [|p xs /= ih]; rewrite ?horner0 //= hornerD hornerM hornerC ih. Qed.
Lemma limits_some n : N.lt n (N.pow 2 31) -> exists l, degree_limits n = Some l.
Proof.
move=> h; rewrite /degree_limits /u32 N.mod_small; last first.
  by lia.
set md := (if N.eqb _ _ then _ else _).
have -> : N.ltb md (N.pow 2 32); last by eexists.
rewrite /md; case: ifP => // _; apply/N.ltb_lt; apply: (@N.le_lt_trans _ (N.pow 2 31)) => //; apply: N.pow_le_mono_r => //.
apply: (@N.le_trans _ (N.log2_up (N.pow 2 31))); last by rewrite N.log2_up_pow2.
by apply: N.log2_up_le_mono; rewrite N.add_1_r; apply/N.le_succ_l.
Qed.

Definition val t (v : variable) : {poly F} := odflt 0 (variable_value omega t v).
Definition the_sum t gates (theta : F) : {poly F} :=
  horner_rec [seq evaluate (val t) (convert_expr id polyC x.1) * val t (selector_variable x.2) | x <- selected gates] theta%:P.
Lemma prover_ok gates t n mask tr : N.lt n (N.pow 2 31) ->
  (forall g v, List.In g gates -> v \in gate_variables g -> isSome (variable_value omega t v)) ->
  gates_prove_eval omega challenge gates t n mask tr = Some (the_sum t gates (challenge tr).1 * mask, (challenge tr).2).
Proof.
move=> hn hv; rewrite /gates_prove_eval; case: (challenge tr) => theta tr' /=.
have [limits ->] := limits_some hn; rewrite /= /gate_expressions.
have := @fold_gates F limits theta (val t) gates expr_nil expr_nil 1.
have := @vars_gates F (fun v => isSome (variable_value omega t v)) limits theta gates expr_nil expr_nil 1.
case: (foldl _ _ _) => -[l s] acc /= h1 [h2 _].
have {h1} /andP[hl hs] : all (fun v => isSome (variable_value omega t v)) (for_each_variable l) && all (fun v => isSome (variable_value omega t v)) (for_each_variable s).
  apply: h1 => //; apply/List.Forall_forall => g hg; split; first by apply: (hv g) => //; rewrite inE eqxx.
  apply/List.Forall_forall => c hc; apply/allP => v hvc; apply: (hv g) => //; rewrite inE; apply/orP; right.
  by elim: (g_constraints g) hc => //= c' cs ih [->|/ih]; rewrite mem_cat ?hvc // => ->; rewrite orbT.
have [//|m1 -> hm1 /=] := @evaluate_expression_ok F omega t [::] l _ hl.
have [|m2 -> _ /=] := @evaluate_expression_ok F omega t (if N.eqb limits.1 limits.2 then m1 else [::]) s _ hs.
  by case: ifP.
by congr (Some (_ * _, _)); rewrite h2 /= !eval_termE /= !mul0r !add0r mul1r.
Qed.

Add Field Ff_c29 : (@ffield_theory F).
Lemma stepF (a b th h e : F) : a + e * b + b * th * h = a + b * (h * th + e).
Proof. fring F. Qed.
Lemma opened_val t ev y v : opened t ev y v ->
  isSome (variable_value omega t v) /\ hm_find (@eq_op [eqType of evaluation_key]) ev (variable_key v) = Some (val t v).[y].
Proof.
move=> [p hp]; rewrite /variable_key => ->; rewrite /val /variable_value hp /=; split=> //.
by case: eqP => [->|_] /=; rewrite ?shift_at // expr0z mul1r.
Qed.
Lemma verifier_ok gates t ev y mask tr :
  (forall g v, List.In g gates -> v \in gate_variables g -> opened t ev y v) ->
  gates_verify_eval challenge gates ev mask tr = Some ((the_sum t gates (challenge tr).1).[y] * mask, (challenge tr).2).
Proof.
move=> ho; rewrite /gates_verify_eval; case: (challenge tr) => theta tr' /=.
rewrite /the_sum horner_rec_at -map_comp.
set vs := [seq _ | x <- _].
have hc c g : List.In g gates -> List.In c (g_constraints g) -> map_evaluate c ev = Some (evaluate (fun v => (val t v).[y]) c).
  move=> hg hc; have hall v : v \in for_each_variable c -> hm_find (@eq_op [eqType of evaluation_key]) ev (variable_key v) = Some (val t v).[y].
    move=> hv; apply: (proj2 (opened_val _)); apply: (ho g) => //; rewrite inE; apply/orP; right.
    by elim: (g_constraints g) hc => //= c' cs ih [->|/ih]; rewrite mem_cat ?hv // => ->; rewrite orbT.
  rewrite /map_evaluate /evaluate_opt ifT; last by apply/allP => v /hall ->.
  by congr Some; apply: evaluate_ext => v /hall ->.
have hs g : List.In g gates -> hm_find (@eq_op [eqType of evaluation_key]) ev (g_selector g, 0 : int, CSelector) = Some (val t (selector_variable (g_selector g))).[y].
  by move=> hg; have [_] := opened_val (ho g (selector_variable (g_selector g)) hg (mem_head _ _)).
suff H f acc : ofold (verify_gate theta) (f, acc, ev) gates = Some (f + acc * horner_rec vs theta, acc * theta ^+ size vs, ev).
  by rewrite H /= add0r mul1r.
rewrite {}/vs; elim: gates f acc ho hc hs => [|g gates ih] f acc ho hc hs; first by rewrite /= mulr0 addr0 mulr1.
rewrite [ofold _ _ _]/= {1}/verify_gate.
have hcs : forall cs a b, (forall c, List.In c cs -> List.In c (g_constraints g)) -> ofold (verify_constraint ev theta) (a, b) cs =
    Some (a + b * horner_rec [seq evaluate (fun v => (val t v).[y]) c | c <- cs] theta, b * theta ^+ size cs).
  elim=> [|c cs ihc] a b hin; first by rewrite /= mulr0 addr0 mulr1.
  rewrite /= {1}/verify_constraint (hc c g) /=; [|by left|by apply: hin; left].
  rewrite ihc => [|c' h]; last by apply: hin; right.
  by congr (Some (_, _)); [exact: stepF|rewrite exprS mulrA].
rewrite hcs //= (hs g) /=; last by left.
rewrite ih; [|by move=> g' v hg; apply: ho; right|by move=> c g' hg; apply: hc; right|by move=> g' hg; apply: hs; right].
rewrite /selected /= -/(selected gates) map_cat horner_rec_cat size_cat !size_map exprD mulrA; congr (Some (_, _, _)).
rewrite add0r mulrDr -!addrA; congr (_ + _); rewrite !mulrA; congr (_ + _).
rewrite -mulrA; congr (_ * _); rewrite -map_comp.
elim: (g_constraints g) => [|c cs ihc] /=; first by rewrite mul0r.
by rewrite mulrDl -ihc hornerM evaluate_at mulrAC.
Qed.

(** The constraint made of a vector of terms is their sum. *)
Theorem C29_terms (terms : seq (eterm variable F)) (g : variable -> F) :
  evaluate g (constraint_of_terms terms) = \sum_(u <- terms) t_coeff u * \prod_(v <- t_vars u) g v.
Proof.
rewrite /constraint_of_terms; suff H c : evaluate g (foldl (fun c u => e_add_assign c (Term u)) c terms)
    = evaluate g c + \sum_(u <- terms) t_coeff u * \prod_(v <- t_vars u) g v.
  by rewrite H /= eval_termE /= mul0r add0r.
elim: terms c => [|u us ih] c /=; first by rewrite big_nil addr0.
by rewrite ih e_add_assign_val /= eval_termE big_cons addrA.
Qed.

(** ** Agreement
    Given the values of the columns at the challenge point for every variable of the gates, the prover succeeds and the
    verifier, from the same transcript, returns the value at [y] of the prover's polynomial and the same transcript. *)
Theorem C29_agreement gates t ev n mask tr y : N.lt n (N.pow 2 31) ->
  (forall g v, List.In g gates -> v \in gate_variables g -> opened t ev y v) ->
  exists f, gates_prove_eval omega challenge gates t n mask tr = Some (f, (challenge tr).2) /\
    gates_verify_eval challenge gates ev mask.[y] tr = Some (f.[y], (challenge tr).2).
Proof.
move=> hn ho; exists (the_sum t gates (challenge tr).1 * mask).
rewrite prover_ok // => [|g v hg /(ho g _ hg) /opened_val[]] //.
by rewrite (verifier_ok _ _ ho) hornerM.
Qed.

(** ** The meaning of the polynomial: rows of the table *)
Variables (rows : nat).
Hypothesis prim : rows.-primitive_root omega.

Lemma rows_gt0 : (0 < rows)%N. Proof. exact: prim_order_gt0 prim. Qed.
Lemma omega_neq0 : omega != 0.
Proof.
apply/eqP => h; have := prim_expr_order prim; rewrite h expr0n; move: rows_gt0; case: (rows) => //= n _ /eqP.
by rewrite eq_sym oner_eq0.
Qed.
Lemma expz_mod (x d : int) : omega ^ d = 1 -> omega ^ (modz x d) = omega ^ x.
Proof.
move=> h; have -> : omega ^ x = omega ^ (d * divz x d + modz x d) by rewrite mulrC -divz_eq.
have e : omega ^ (d * divz x d) = 1 by rewrite -(exprz_exp omega d) h exp1rz.
by rewrite [RHS](expfzDr _ _ omega_neq0) e mul1r.
Qed.
Lemma rotated_rowP row rot : (rows %| 2 ^ 64)%N -> (rotated_row rows row rot < rows)%N /\
  omega ^+ rotated_row rows row rot = omega ^ rot * omega ^+ row.
Proof.
move=> hd; rewrite /rotated_row; set x := modz _ (2%:Z ^+ 64).
have r0 : rows%:Z != 0 by move: rows_gt0; case: (rows).
have hm := modz_ge0 x r0; have e := gez0_abs hm; split.
  by rewrite -ltz_nat e ltz_mod.
have o1 : omega ^ rows%:Z = 1 by rewrite -exprnP prim_expr_order.
rewrite exprnP e expz_mod // /x expz_mod.
  rewrite expfzDr ?omega_neq0 // -exprnP mulrC exprD prim_expr_order // mul1r //.
have -> : 2%:Z ^+ 64 = (2 ^ 64)%N by elim: 64%N => // n ih; rewrite exprS ih expnS PoszM.
by rewrite -exprnP; case/dvdnP: hd => k ->; rewrite mulnC exprM (prim_expr_order prim) expr1n.
Qed.

Lemma omapM_vget (A B : Type) (f : A -> option B) s r i : omapM f s = Some r -> vget r i = obnd (vget s i) f.
Proof.
elim: s r i => [|x s ih] r i /=; first by case=> <-; case: i.
by case ex : (f x) => [y|] //=; case e : (omapM f s) => [r'|] //= [<-]; case: i => [|i] //=; rewrite (ih _ _ e).
Qed.
Lemma table_polynomial (t : plonk_table F) pt v : polynomials_of_table omega rows t = Some pt ->
  variable_polynomial pt v = obnd (variable_column t v) (column_polynomial_dfs omega rows).
Proof.
rewrite /polynomials_of_table; case ew : (omapM _ (pr_witnesses _)) => [w|] //=; case ep : (omapM _ (pu_public_inputs _)) => [p|] //=.
case ec : (omapM _ (pu_constants _)) => [c|] //=; case es : (omapM _ (pu_selectors _)) => [sl|] //= [<-].
by rewrite /variable_polynomial /variable_column /=; case: (pv_type v) => //=;
  [apply: omapM_vget ew|apply: omapM_vget ep|apply: omapM_vget ec|apply: omapM_vget es].
Qed.
Lemma omapM_all (A B : Type) (f : A -> option B) s : omapM f s <> None -> all (fun x => isSome (f x)) s.
Proof. by elim: s => //= x s ih; case: (f x) => //= y; case: (omapM f s) ih => //= r ih _; apply: ih. Qed.
Lemma column_size (t : plonk_table F) pt v col : polynomials_of_table omega rows t = Some pt -> variable_column t v = Some col ->
  size col = rows /\ rows_amount t = rows.
Proof.
move=> hp hv.
have hall : all (fun c => size c == rows) (all_columns t).
  move: hp; rewrite /polynomials_of_table.
  have H s : omapM (column_polynomial_dfs omega rows) s <> None -> all (fun c => size c == rows) s.
    by move/omapM_all; apply: sub_all => c; rewrite /column_polynomial_dfs; case: eqP.
  case ew : (omapM _ (pr_witnesses _)) => [w|] //=; case ep : (omapM _ (pu_public_inputs _)) => [p|] //=.
  case ec : (omapM _ (pu_constants _)) => [c|] //=; case es : (omapM _ (pu_selectors _)) => [sl|] //= _.
  by rewrite /all_columns !all_cat !H ?ew ?ep ?ec ?es.
have G s i (c : seq F) : vget s i = Some c -> c \in s.
  by elim: s i => [|x s ih] [|i] //= => [[->]|/ih]; rewrite inE ?eqxx // => ->; rewrite orbT.
have hin : col \in all_columns t.
  by move: hv; rewrite /variable_column /all_columns !mem_cat; case: (pv_type v) => // /G ->; rewrite ?orbT.
split; first by apply/eqP/(allP hall).
rewrite rows_amountE; apply/eqP; rewrite eqn_leq; apply/andP; split.
  by apply/bigmax_leqP_seq => c /(allP hall)/eqP->.
by have := allP hall _ hin => /eqP {1}<-; apply: (@leq_bigmax_seq _ _ _ (fun c : seq F => size c)).
Qed.

(** The value of a constraint on a row of the table is the value of its polynomial at the point of that row: rotations
    are cyclic shifts. *)
Theorem C29_row_value (t : plonk_table F) pt (c : plonk_constraint F) j :
  polynomials_of_table omega rows t = Some pt -> (rows %| 2 ^ 64)%N ->
  all (fun v => isSome (variable_column t v)) (for_each_variable c) ->
  exists2 p, polynomial_evaluate omega c pt = Some p & row_evaluate c j t = Some p.[omega ^+ j].
Proof.
move=> hp hd hc; rewrite /row_evaluate /polynomial_evaluate /evaluate_opt.
have hv v : (obnd (variable_column t v) (fun col => vget col (rotated_row (rows_amount t) j (pv_rotation v)))) =
    omap (fun p : {poly F} => p.[omega ^+ j]) (variable_value omega pt v).
  rewrite /variable_value (table_polynomial v hp); case e : (variable_column t v) => [col|] //=.
  have [h1 h2] := column_size hp e; rewrite /column_polynomial_dfs h1 eqxx /=.
  have [h3 h4] := rotated_rowP j (pv_rotation v) hd; rewrite h2 (vget_nth 0) ?h1 //; congr Some.
  by rewrite -(dfs_at prim _ h3) h4; case: eqP => [->|_] /=; rewrite ?shift_at // expr0z mul1r.
have hs : {in for_each_variable c, forall v, isSome (variable_value omega pt v)}.
  move=> v /(allP hc); rewrite /variable_value (table_polynomial v hp); case e : (variable_column t v) => [col|] //= _.
  by have [h1 _] := column_size hp e; rewrite /column_polynomial_dfs h1 eqxx.
have hs' : all (fun v => isSome (variable_value omega pt v)) (for_each_variable c) by apply/allP.
rewrite (@vars_convert _ _ [comRingType of {poly F}] polyC _ c hs'); eexists; first by [].
rewrite ifT; last by apply/allP => v /hs; rewrite hv; case: (variable_value _ _ _).
by congr Some; rewrite evaluate_at; apply: evaluate_ext => v /hs; rewrite hv; case: (variable_value _ _ _).
Qed.

(** Every gate constraint holds on every row below [usable] on which the selector of its gate is not zero. *)
Definition satisfied gates (t : plonk_table F) (usable : nat) : Prop :=
  forall g c j, List.In g gates -> List.In c (g_constraints g) -> (j < usable)%N ->
  exists s x, [/\ obnd (selector t (g_selector g)) (fun col => vget col j) = Some s, row_evaluate c j t = Some x & s = 0 \/ x = 0].
(** the mask of prover.hpp:171-174 *)
Definition mask (usable : nat) : {poly F} := 1 - lagrange_polynomial omega rows usable - selector_blind omega rows usable.
(** every variable names a column of the table *)
Definition has_columns gates (t : plonk_table F) : Prop :=
  forall g v, List.In g gates -> v \in gate_variables g -> isSome (variable_column t v).

Lemma mask_at usable j : (j < rows)%N -> (mask usable).[omega ^+ j] = (j < usable)%N%:R.
Proof.
move=> hj; rewrite /mask !hornerD !hornerN horner_1 lagrange_at_dom // blind_at_dom //.
by case: (ltngtP j usable) => _; rewrite ?subr0 ?subrr //= ?sub0r ?subr0 ?subrr // oppr0 addr0.
Qed.
Lemma columns_values gates (t : plonk_table F) pt : polynomials_of_table omega rows t = Some pt -> has_columns gates t ->
  forall g v, List.In g gates -> v \in gate_variables g -> isSome (variable_value omega pt v).
Proof.
move=> hp h g v hg hv; have := h g v hg hv; rewrite /variable_value (table_polynomial v hp).
by case e : (variable_column t v) => [col|] //= _; have [h1 _] := column_size hp e; rewrite /column_polynomial_dfs h1 eqxx.
Qed.
Lemma in_gate_vars (g : plonk_gate F) c v : List.In c (g_constraints g) -> v \in for_each_variable c -> v \in gate_variables g.
Proof.
move=> hc hv; rewrite inE; apply/orP; right.
by elim: (g_constraints g) hc => //= c' cs ih [->|/ih]; rewrite mem_cat ?hv // => ->; rewrite orbT.
Qed.
(** the products selector * constraint on row [j] *)
Lemma sum_row gates (t : plonk_table F) pt theta j : polynomials_of_table omega rows t = Some pt -> (j < rows)%N ->
  (the_sum pt gates theta).[omega ^+ j] = (Poly [seq (evaluate (val pt) (convert_expr id polyC x.1)).[omega ^+ j]
     * (val pt (selector_variable x.2)).[omega ^+ j] | x <- selected gates]).[theta].
Proof. by move=> hp hj; rewrite /the_sum horner_rec_at horner_Poly -map_comp; congr horner_rec; apply: eq_map => x /=; rewrite hornerM. Qed.
Lemma cell_values gates (t : plonk_table F) pt g c j : polynomials_of_table omega rows t = Some pt -> (rows %| 2 ^ 64)%N -> has_columns gates t ->
  List.In g gates -> List.In c (g_constraints g) -> (j < rows)%N ->
  row_evaluate c j t = Some (evaluate (val pt) (convert_expr id polyC c)).[omega ^+ j] /\
  obnd (selector t (g_selector g)) (fun col => vget col j) = Some (val pt (selector_variable (g_selector g))).[omega ^+ j].
Proof.
move=> hp hd hh hg hc hj; split.
  have [|p h1 ->] := @C29_row_value t pt c j hp hd; first by apply/allP => v hv; apply: (hh g) => //; apply: in_gate_vars hv.
  by move: h1; rewrite /polynomial_evaluate /evaluate_opt; case: ifP => // _ [<-].
have := hh g (selector_variable (g_selector g)) hg (mem_head _ _).
rewrite /val /variable_value (table_polynomial _ hp) /variable_column /=; case e : (selector t (g_selector g)) => [col|] //= _.
have [h1 _] := @column_size t pt (selector_variable (g_selector g)) col hp e.
by rewrite /column_polynomial_dfs h1 eqxx /= dfs_at // (vget_nth 0) // h1.
Qed.
Lemma in_selected gates x : List.In x (selected gates) -> exists g, [/\ List.In g gates, List.In x.1 (g_constraints g) & x.2 = g_selector g].
Proof.
elim: gates => [|g gates ih] //=; rewrite /selected /= => h; case: (List.in_app_or _ _ _ h) => {h}.
  move/List.in_map_iff => [c [<- hc]]; exists g; split=> //; by left.
by move/ih => [g' [h1 h2 h3]]; exists g'; split=> //; right.
Qed.
Lemma selected_in gates g c : List.In g gates -> List.In c (g_constraints g) -> List.In (c, g_selector g) (selected gates).
Proof.
elim: gates => [|g' gates ih] //=; rewrite /selected /= => -[->|hg] hc; apply: List.in_or_app.
  by left; apply/List.in_map_iff; exists c.
by right; apply: ih.
Qed.

(** ** Completeness: for every challenge the prover's polynomial vanishes on all rows. *)
Theorem C29_complete gates (t : plonk_table F) pt n usable tr :
  polynomials_of_table omega rows t = Some pt -> (rows %| 2 ^ 64)%N -> N.lt n (N.pow 2 31) -> has_columns gates t ->
  satisfied gates t usable ->
  exists2 f, gates_prove_eval omega challenge gates pt n (mask usable) tr = Some (f, (challenge tr).2) &
    forall j, (j < rows)%N -> f.[omega ^+ j] = 0.
Proof.
move=> hp hd hn hh hs; rewrite prover_ok //; last exact: columns_values hp hh.
eexists; first by [].

move=> j hj; rewrite hornerM mask_at //; case: ltnP => hu; last by rewrite mulr0.
rewrite mulr1 (sum_row _ _ hp hj).
suff -> : Poly [seq (evaluate (val pt) (convert_expr id polyC x.1)).[omega ^+ j] * (val pt (selector_variable x.2)).[omega ^+ j] | x <- selected gates] = 0 by rewrite horner0.
have : forall x, List.In x (selected gates) -> (evaluate (val pt) (convert_expr id polyC x.1)).[omega ^+ j] * (val pt (selector_variable x.2)).[omega ^+ j] = 0.
  move=> x /in_selected[g [h1 h2 h3]]; have [e1 e2] := cell_values hp hd hh h1 h2 hj.
  by have [s [y []]] := hs g x.1 j h1 h2 hu; rewrite e1 e2 h3 => -[->] [->] [->|->]; rewrite ?mulr0 ?mul0r.
elim: (selected gates) => [|x xs ih] h //=; rewrite ih => [|y hy]; last by apply: h; right.
by rewrite h ?cons_poly_def ?mul0r ?addr0 //; left.
Qed.

(** ** Soundness: if the polynomial vanishes on the usable rows for as many different challenges as there are constraints,
    every constraint holds. *)
Theorem C29_sound gates (t : plonk_table F) pt n usable (trs : seq T) :
  polynomials_of_table omega rows t = Some pt -> (rows %| 2 ^ 64)%N -> N.lt n (N.pow 2 31) -> has_columns gates t ->
  (usable <= rows)%N -> uniq [seq (challenge tr).1 | tr <- trs] ->
  (sumn [seq size (g_constraints g) | g <- gates] <= size trs)%N ->
  (forall tr f tr', List.In tr trs -> gates_prove_eval omega challenge gates pt n (mask usable) tr = Some (f, tr') ->
    forall j, (j < usable)%N -> f.[omega ^+ j] = 0) ->
  satisfied gates t usable.
Proof.
move=> hp hd hn hh hu huniq hsz hf g c j hg hc hj.
have hjr : (j < rows)%N by apply: leq_trans hu.
have [e1 e2] := cell_values hp hd hh hg hc hjr; do 2 eexists; split; [exact: e2|exact: e1|].
pose h x := (evaluate (val pt) (convert_expr id polyC x.1)).[omega ^+ j] * (val pt (selector_variable x.2)).[omega ^+ j].
pose P := Poly [seq h x | x <- selected gates].
have P0 : P = 0.
  apply/eqP; apply: contraTT (leqnn (size trs)) => hP; rewrite -ltnNge.
  have : (size [seq (challenge tr).1 | tr <- trs] < size P)%N.
    apply: max_poly_roots => //; rewrite all_map; elim: (trs) hf {huniq hsz} => [|tr trs' ih] hf //=.
    rewrite ih => [|tr' f tr'' hin]; last by apply: hf; right.
    have := hf tr _ _ (or_introl erefl) (prover_ok (mask usable) tr hn (columns_values hp hh)) j hj.
    by rewrite hornerM mask_at // hj mulr1 (sum_row _ _ hp hjr) andbT => hz; apply/eqP; exact: hz.
  rewrite size_map => h1; apply: leq_trans h1 _; apply: leq_trans (size_Poly _) _; rewrite size_map.
  apply: leq_trans hsz; rewrite /selected size_flatten /shape -map_comp.
  by apply: eq_leq; congr sumn; apply: eq_map => g' /=; rewrite size_map.
have hz x : List.In x (selected gates) -> h x = 0.
  move: P0; rewrite /P; elim: (selected gates) => [|y ys ih] //= /eqP; rewrite cons_poly_def => hh'.
  have h0 : h y = 0 by move/eqP: hh' => /(congr1 (fun p : {poly F} => p`_0)); rewrite coefD coefMX coefC eqxx coef0 /= add0r.
  move=> [<-//|hx]; apply: ih => //; move: hh'; rewrite h0 addr0 mulf_eq0 polyX_eq0 orbF; by move/eqP.
have /eqP := hz _ (selected_in hg hc); rewrite /h /= mulf_eq0 => /orP[/eqP ->|/eqP ->]; by [right|left].
Qed.

(** ** Degrees: [n] is at least the degree of every constraint. The expression with degree limit [d] has, on columns of
    [rows] values, fewer than [d * rows] coefficients, so it is determined by its values on the extended domain of that
    size; the small limit is half the large one; and the product of selector and constraints has the degree that the
    quotient computation assumes. *)
Theorem C29_buckets gates pt n theta large small : N.lt n (N.pow 2 31) -> N.lt 0 n ->
  (forall g c, List.In g gates -> List.In c (g_constraints g) -> degree_fits c /\ N.le (compute_max_degree c) n) ->
  (forall v p, variable_polynomial pt v = Some p -> (size p <= rows)%N) ->
  exists2 k, degree_limits n = Some (N.pow 2 (N.succ k), N.pow 2 k) & (N.lt n (N.pow 2 (N.succ k))) /\
  (gate_expressions (N.pow 2 (N.succ k), N.pow 2 k) theta gates = (large, small) ->
   (size (evaluate (val pt) large) <= 2 ^ (N.to_nat k).+1 * rows)%N /\ (size (evaluate (val pt) small) <= 2 ^ N.to_nat k * rows)%N).
Proof.
move=> hn hn0 hc hv.
have en : u32 (N.add n 1) = N.succ n by rewrite /u32 N.mod_small; lia.
pose k := N.pred (N.log2_up (N.succ n)).
have hk : N.log2_up (N.succ n) = N.succ k.
  by rewrite /k N.succ_pred //; have := @N.log2_up_pos (N.succ n); lia.
have hle : N.le (N.succ n) (N.pow 2 (N.succ k)) by rewrite -hk; apply: (proj2 (N.log2_up_spec _ _)); lia.
have hlim : degree_limits n = Some (N.pow 2 (N.succ k), N.pow 2 k).
  have [l hl] := limits_some hn; move: (hl); rewrite /degree_limits en; have -> : N.eqb (N.succ n) 0 = false by apply/N.eqb_neq; lia.
  rewrite hk; case: ifP => //= _ _; congr (Some (_, _)).
  by rewrite N.pow_succ_r' N.mul_comm N.div_mul.
exists k => //; split; first by lia.
have hg v : (size (val pt v) <= (rows.-1).+1)%N.
  rewrite (prednK rows_gt0) /val /variable_value; case e : (variable_polynomial pt v) => [p|] /=; last by rewrite size_poly0.
  have := hv _ _ e; case: eqP => //= _ h; rewrite /polynomial_shift size_comp_poly2 //; last first.
    by rewrite size_scale ?size_polyX // expfz_neq0 // omega_neq0.
rewrite /gate_expressions; have := @fold_gates_deg F (val pt) rows.-1 hg (N.pow 2 (N.succ k), N.pow 2 k) theta gates expr_nil expr_nil 1.
have e0 : evaluate (val pt) expr_nil = 0 by rewrite /= eval_termE /= mul0r.
rewrite e0 size_poly0 => /(_ _ isT isT) H.
move: H; set PF := List.Forall _ gates.
have hF : PF.
  apply/List.Forall_forall => g hgt; apply/List.Forall_forall => c hcc; have [h1 h2] := hc g c hgt hcc.
  split=> //; split; first by lia.
  by apply: (N.le_trans _ (N.succ n)) => //; lia.
move=> /(_ hF); case: (foldl _ _ _) => -[l s] a /= [h1 h2] [<- <-].
have pw j : N.to_nat (N.pow 2 j) = (2 ^ N.to_nat j)%N.
  by apply: Nnat.Nat2N.inj; rewrite of_nat_pow !Nnat.N2Nat.id.
move: h1 h2; rewrite !pw Nnat.N2Nat.inj_succ => h1 h2.
have pad a' (p : nat) : (0 < p)%N -> (a' <= (rows.-1 * p).+1)%N -> (a' <= p * rows)%N.
  by move=> hp ha; apply: leq_trans ha _; rewrite -{2}(prednK rows_gt0) mulnS mulnC -addn1 addnC leq_add2r.
by split; apply: pad => //; rewrite expn_gt0.
Qed.
End C29.

Lemma pow4 n : exists k, 2%:Z ^+ (2 * n) = (3 * k + 1)%N.
Proof.
rewrite exprM; elim: n => [|n [k ih]]; first by exists 0%N.
exists (4 * k + 1)%N; rewrite exprS ih; have -> : (2%:Z ^+ 2 : int) = 4%N by [].
by rewrite -PoszM; congr Posz; slia.
Qed.
(** ** Finding: on tables whose number of rows is not a power of two, a rotation below minus the number of rows reads a
    wrong row ([constraint.hpp:93] adds the rotation to an unsigned number before reducing): row 0 with rotation -4 of a
    table with 3 rows is row 2, the code reads row 0. *)
Theorem C29_negative_rotation_refuted : rotated_row 3 0 (- 4%:Z) = 0%N /\ `|modz (0 - 4%:Z) 3|%N = 2%N.
Proof.
split; last by [].
rewrite /rotated_row.
have := pow4 32; rewrite -[(2 * 32)%N]/64%N; move: (2%:Z ^+ 64) => q [k ->].
have -> : (3 + 0)%N%:Z + - 4%:Z = Negz 0 by [].
by rewrite modNz_nat ?addn1 // mod0n subr0 -addn1 PoszD addrK mulnC PoszM modzMl.
Qed.

(** A table over the integers modulo 17 with four rows, three of them usable: the witness doubles from row to row. *)
Section Witness.
Local Arguments rotated_row : simpl never.
Local Arguments rows_amount : simpl never.
Notation F := [fieldType of 'F_17].
Let w : expr [eqType of plonk_variable] F := expr_var _ (PlonkVariable 0 0 true CWitness).
Let next_w : expr [eqType of plonk_variable] F := expr_var _ (PlonkVariable 0 1 true CWitness).
Let doubling : plonk_gate F := PlonkGate [:: Bin SUB next_w (Bin MULT (expr_const _ 2) w)] 0.
Let table : plonk_table F := PlonkTable (PrivateTable [:: [:: 1; 2; 4; 8]]) (PublicTable [::] [::] [:: [:: 1; 1; 1; 0]]).
Lemma rotated_row_pos rows j r : (0 < rows)%N -> (rows + j + r < 2 ^ 64)%N -> rotated_row rows j r%:Z = ((rows + j + r) %% rows)%N.
Proof.
move=> h0 h; rewrite /rotated_row -PoszD; have -> : 2%:Z ^+ 64 = (2 ^ 64)%N by elim: 64%N => // n ih; rewrite exprS ih expnS PoszM.
by rewrite modz_nat (modn_small h) modz_nat.
Qed.
Example C29_witness : [/\ 4%N.-primitive_root (4 : F), exists pt, polynomials_of_table (4 : F) 4 table = Some pt, (4 %| 2 ^ 64)%N,
  has_columns [:: doubling] table & satisfied [:: doubling] table 3].
Proof.
split.
- apply/andP; split=> //; apply/forallP => -[i hi]; rewrite unity_rootE /=; by do 4 (case: i hi => [|i] hi; first vm_decide).
- by eexists.
- by rewrite -[4%N]/(2 ^ 2)%N dvdn_exp2l.
- by move=> g v [<-|//]; rewrite !inE => /or3P[] /eqP->.
- move=> g c j [<-|//] [<-|//] hj; have hr r : (r <= 1)%N -> rotated_row 4 j r%:Z = ((4 + j + r) %% 4)%N.
    move=> hr; apply: rotated_row_pos => //; apply: (@leq_trans (2 ^ 4)%N); last by rewrite leq_exp2l.
    by move: hj hr; move: (2 ^ 4)%N (erefl : 16%N = 2 ^ 4)%N => ? <-; slia.
  have e4 : rows_amount table = 4%N by [].
  rewrite /row_evaluate e4; move: (hr 1%N isT) (hr 0%N isT) => {hr}; move: (rotated_row 4 j) => f h1 h0.
  rewrite /evaluate_opt /= /eval_term /= !h1 !h0 {f h1 h0}.
  do 3 (case: j hj => [|j] hj; first by do 2 eexists; split; [reflexivity|reflexivity|right; vm_decide]).
  by [].
Qed.
End Witness.
Print Assumptions C29_agreement.
Print Assumptions C29_complete.
Print Assumptions C29_sound.
Print Assumptions C29_buckets.
