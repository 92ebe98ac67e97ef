(** Lemmas about the gates argument of Model/GatesArgument.v. *)
From Coq Require Import NArith Lia.
From mathcomp Require Import all_ssreflect all_algebra.
From Verif.Model Require Import Base HashMap OrderedMap Expression PlonkVariable PlonkTable PermutationArgument GatesArgument.
From Verif.Spec Require Import ExprSpec.
From Verif.Proofs Require Import NatTac FieldTac MapProofs ExprProofs PermArgProofs.
From Verif.Props Require Import C15_CachedEvaluation.
Set Implicit Arguments.
Unset Strict Implicit.
Unset Printing Implicit Defensive.
Import GRing.Theory.
Local Open Scope ring_scope.

(** The constraints of all gates in order, each with the selector of its gate. *)
Definition selected (F : fieldType) (gates : seq (plonk_gate F)) : seq (plonk_constraint F * nat) :=
  flatten [seq [seq (c, g_selector g) | c <- g_constraints g] | g <- gates].

Section Expr.
Variables (V : eqType) (R : comRingType).
Lemma evaluate_ext (g g' : V -> R) (e : expr V R) : {in for_each_variable e, g =1 g'} -> evaluate g e = evaluate g' e.
Proof.
elim: e => [t|b ih n|o a iha b ihb] /= h.
- by rewrite !eval_termE; congr (_ * _); rewrite !big_seq; apply: eq_bigr => v /h.
- by rewrite ih.
- by case: o => /=; rewrite iha ?ihb // => v hv; apply: h; rewrite mem_cat hv ?orbT.
Qed.
Lemma vars_add (P : pred V) (a b : expr V R) : all P (for_each_variable a) -> all P (for_each_variable b) ->
  all P (for_each_variable (e_add a b)).
Proof. by rewrite /e_add => h1 h2; case: ifP => // _; case: ifP => //= _; rewrite all_cat h1. Qed.
Lemma vars_add_assign (P : pred V) (a b : expr V R) : all P (for_each_variable a) -> all P (for_each_variable b) ->
  all P (for_each_variable (e_add_assign a b)).
Proof. by rewrite /e_add_assign => h1 h2; case: ifP => // _; case: ifP => //= _; rewrite all_cat h1. Qed.
Lemma vars_mul (P : pred V) (a b : expr V R) : all P (for_each_variable a) -> all P (for_each_variable b) ->
  all P (for_each_variable (e_mul a b)).
Proof. by rewrite /e_mul => h1 h2; case: ifP => //= _; rewrite all_cat h1. Qed.
Lemma horner_rec_cat (xs ys : seq R) x : horner_rec (xs ++ ys) x = horner_rec xs x + x ^+ size xs * horner_rec ys x.
Proof.
elim: xs => [|a xs ih] /=; first by rewrite add0r mul1r.
by rewrite ih exprS mulrDl -!addrA; congr (_ + _); rewrite addrC; congr (_ + _); rewrite mulrC mulrA.
Qed.
End Expr.
Lemma vars_convert (V : eqType) (R R' : comRingType) (f : R -> R') (P : pred V) (e : expr V R) :
  all P (for_each_variable e) -> all P (for_each_variable (convert_expr id f e)).
Proof.
elim: e => [t|b ih n|o a iha b ihb] /=; [by rewrite map_id|exact: ih|].
rewrite all_cat => /andP[/iha ha /ihb hb]; case: o; [exact: vars_add|by rewrite /= all_cat ha|exact: vars_mul].
Qed.

Section Gates.
Variables (F : fieldType) (omega : F).
Notation variable := [eqType of plonk_variable].
Notation PR := [comRingType of {poly F}].
Local Arguments add_constraint : simpl never.
Local Arguments add_gate : simpl never.
Local Arguments e_mul : simpl never.
Local Arguments e_mul_assign : simpl never.
Local Arguments e_add_assign : simpl never.
Implicit Types (t : polynomial_table F) (g : variable -> {poly F}).

Lemma combine (R : comRingType) (l s A B sel acc H th rest : R) : A + B = acc * H ->
  l + A * sel + (s + B * sel) + acc * th * rest = l + s + acc * (H * sel + th * rest).
Proof. by move=> h; rewrite addrACA -mulrDl h mulrDr !mulrA addrA. Qed.
Lemma fold_constraints limits theta g cs l s acc :
  let: (l', s', acc') := foldl (add_constraint limits theta) (l, s, acc) cs in
  evaluate g l' + evaluate g s' = evaluate g l + evaluate g s
    + acc%:P * horner_rec [seq evaluate g (convert_expr id polyC c) | c <- cs] theta%:P /\
  acc' = acc * theta ^+ size cs.
Proof.
elim: cs l s acc => [|c cs ih] l s acc /=; first by rewrite mulr0 addr0 expr0 mulr1.
set st := add_constraint _ _ _ _.
have := ih st.1.1 st.1.2 st.2; rewrite -!surjective_pairing; case: (foldl _ st cs) => -[l' s'] acc' [h1 h2].
pose nt := e_mul (convert_expr id polyC c) (expr_const variable (acc%:P : PR)).
have hst : evaluate g st.1.1 + evaluate g st.1.2 = evaluate g l + evaluate g s + evaluate g nt.
  rewrite /st /add_constraint -/nt; case: ifP => _ /=; rewrite e_add_assign_val; first by rewrite addrA.
  by rewrite -!addrA; congr (_ + _); rewrite addrC.
have hacc : st.2 = acc * theta by rewrite /st /add_constraint; case: ifP.
split; last by rewrite h2 hacc exprS mulrA.
rewrite h1 hst hacc -addrA; congr (_ + _); rewrite e_mul_val /= eval_termE /= big_nil mulr1 mulrDr addrC polyCM.
by rewrite [acc%:P * evaluate _ _]mulrC; congr (_ + _); rewrite -mulrA; congr (_ * _); rewrite mulrC.
Qed.
Lemma fold_gates limits theta g gates l s acc :
  let: (l', s', acc') := foldl (add_gate limits theta) (l, s, acc) gates in
  evaluate g l' + evaluate g s' = evaluate g l + evaluate g s
    + acc%:P * horner_rec [seq evaluate g (convert_expr id polyC x.1) * g (PlonkVariable x.2 0 false CSelector) | x <- selected gates] theta%:P /\
  acc' = acc * theta ^+ size (selected gates).
Proof.
elim: gates l s acc => [|gt gates ih] l s acc /=; first by rewrite mulr0 addr0 expr0 mulr1.
set st := add_gate _ _ _ _.
have := ih st.1.1 st.1.2 st.2; rewrite -!surjective_pairing; case: (foldl _ st gates) => -[l' s'] acc' [h1 h2].
have := fold_constraints limits theta g (g_constraints gt) expr_nil expr_nil acc.
move: @st h1 h2; rewrite /add_gate; case: (foldl _ _ _) => -[gl gs] gacc /= h1 h2 [h3 h4].
rewrite /selected /= -/(selected gates) map_cat horner_rec_cat size_cat !size_map h2 h4 exprD mulrA; split=> //.
rewrite h1 !e_add_assign_val !e_mul_val /= !eval_termE /= big_seq1 mul1r.
set sel := g _; set A := evaluate g gl in h3 *; set B := evaluate g gs in h3 *.
have hs xs : horner_rec [seq evaluate g (convert_expr id polyC x.1) * g (PlonkVariable x.2 0 false CSelector) | x <- [seq (c, g_selector gt) | c <- xs]] theta%:P
   = horner_rec [seq evaluate g (convert_expr id polyC c) | c <- xs] theta%:P * sel.
  by elim: xs => [|x xs /= ->] /=; rewrite ?mul0r // mulrDl mulrAC.
rewrite hs h4 polyCM rmorphX; apply: combine.
by rewrite h3 /= !eval_termE /= !mul0r !add0r.
Qed.

(** ** The map of variable values *)
Notation pfind := (hm_find pv_eqb).
Definition map_ok t (m : pmap F) := forall v p, pfind m v = Some p -> variable_value omega t v = Some p.
Lemma pv_refl : reflexive pv_eqb. Proof. by move=> v; rewrite pv_eqbE. Qed.
Lemma pfind_set m v p v' : pfind (hm_set pv_eqb m v p) v' = if v == v' then Some p else pfind m v' :> option {poly F}.
Proof.
rewrite hm_find_set ?pv_eqbE // => [a b|a b c]; rewrite !pv_eqbE; [exact: eq_sym|by move=> /eqP-> /eqP->].
Qed.
Lemma build_map_ok t m e : map_ok t m -> all (fun v => isSome (variable_value omega t v)) (for_each_variable e) ->
  exists m', [/\ build_variable_value_map omega e t m = Some m', map_ok t m' &
    forall v, v \in for_each_variable e -> pfind m' v = variable_value omega t v].
Proof.
rewrite /build_variable_value_map => hm ha.
have {ha} : all (fun v => isSome (variable_value omega t v)) (undup (for_each_variable e)).
  by apply/allP => v; rewrite mem_undup => hv; apply: (allP ha).
suff H vs : all (fun v => isSome (variable_value omega t v)) vs -> forall m, map_ok t m ->
    exists m', [/\ ofold (fun (m : pmap F) v => if pfind m v is Some _ then Some m
      else olet p <- variable_value omega t v; Some (hm_set pv_eqb m v p)) m vs = Some m', map_ok t m' &
      forall v, (v \in vs) || isSome (pfind m v) -> pfind m' v = variable_value omega t v].
  move=> /H /(_ _ hm) [m' [h1 h2 h3]]; exists m'; split=> // v hv; apply: h3; by rewrite mem_undup hv.
elim: vs => [|v vs ih] /= => [_|/andP[hv /ih{}ih]] m0 hm0.
  by exists m0; split=> // v /=; case E: (pfind m0 v) => [p|] // _; rewrite (hm0 _ _ E).
case E: (pfind m0 v) => [p|] /=.
  have [m' [h1 h2 h3]] := ih _ hm0; exists m'; split=> // v'; rewrite inE -orbA => /orP[/eqP->|]; last exact: h3.
  by apply: h3; rewrite E orbT.
case E': (variable_value omega t v) hv => [p|] //= _.
have [|m' [h1 h2 h3]] := ih (hm_set pv_eqb m0 v p).
  by move=> v' p'; rewrite pfind_set; case: eqP => [<- [<-]|_ /hm0].
exists m'; split=> // v'; rewrite inE -orbA => h; apply: h3; rewrite pfind_set eq_sym.
by case: eqP h => //= _; rewrite orbT.
Qed.
Lemma evaluate_expression_ok t m e : map_ok t m -> all (fun v => isSome (variable_value omega t v)) (for_each_variable e) ->
  exists2 m', evaluate_expression omega t m e = Some (evaluate (fun v => odflt 0 (variable_value omega t v)) e, m') & map_ok t m'.
Proof.
move=> hm ha; have [m' [h1 h2 h3]] := build_map_ok hm ha; exists m' => //.
rewrite /evaluate_expression h1 /=.
have [st [-> _]] := @C15_fresh _ _ (fun v => odflt 0 (pfind m' v)) e; congr (Some (_, _)).
by apply: evaluate_ext => v hv; rewrite h3.
Qed.

(** ** The variables of the two expressions *)
Lemma vars_constraints (P : pred variable) limits theta cs l s acc : List.Forall (fun c : plonk_constraint F => all P (for_each_variable c)) cs ->
  all P (for_each_variable l) -> all P (for_each_variable s) ->
  let: (l', s', _) := foldl (add_constraint limits theta) (l, s, acc) cs in
  all P (for_each_variable l') && all P (for_each_variable s').
Proof.
elim: cs l s acc => [|c cs ih] l s acc hc hl hs /=; first by rewrite hl.
case/List.Forall_cons_iff: hc => hc hcs.
have hnt : all P (for_each_variable (e_mul (convert_expr id polyC c) (expr_const variable (acc%:P : PR)))).
  by apply: vars_mul => //; apply: vars_convert.
by rewrite {2}/add_constraint; case: ifP => _; apply: ih => //; apply: vars_add_assign.
Qed.
Lemma vars_gates (P : pred variable) limits theta gates l s acc :
  List.Forall (fun g : plonk_gate F => P (PlonkVariable (g_selector g) 0 false CSelector) /\ List.Forall (fun c : plonk_constraint F => all P (for_each_variable c)) (g_constraints g)) gates ->
  all P (for_each_variable l) -> all P (for_each_variable s) ->
  let: (l', s', _) := foldl (add_gate limits theta) (l, s, acc) gates in
  all P (for_each_variable l') && all P (for_each_variable s').
Proof.
elim: gates l s acc => [|gt gates ih] l s acc hc hl hs /=; first by rewrite hl.
case/List.Forall_cons_iff: hc => -[hsel hc] hcs; rewrite {2}/add_gate.
have := @vars_constraints P limits theta (g_constraints gt) expr_nil expr_nil acc hc isT isT.
case: (foldl (add_constraint _ _) _ _) => -[gl gs] gacc /andP[h1 h2]; apply: ih => //.
  by apply: vars_add_assign => //; apply: vars_mul => //=; rewrite hsel.
by apply: vars_add_assign => //; apply: vars_mul => //=; rewrite hsel.
Qed.

(** ** Degrees of the two expressions *)
Section Degrees.
Variables (g : variable -> {poly F}) (m : nat).
Hypothesis hg : forall v, (size (g v) <= m.+1)%N.
Definition below (L : nat) (x : {poly F}) := (x == 0) || (0 < L)%N && (size x <= (m * L.-1).+1)%N.
Lemma below0 L : below L 0. Proof. by rewrite /below eqxx. Qed.
Lemma below_add L x y : below L x -> below L y -> below L (x + y).
Proof.
rewrite /below; case: (eqVneq x 0) => [->|_ /= hx]; first by rewrite add0r.
case: (eqVneq y 0) => [->|_ /= hy]; first by rewrite addr0 hx orbT.
case/andP: hx => -> hx; case/andP: hy => _ hy; apply/orP; right; apply: leq_trans (size_add _ _) _; by rewrite geq_max hx.
Qed.
Lemma below_mul L (x y : {poly F}) : below L x -> (size y <= m.+1)%N -> (size (x * y)%R <= (m * L).+1)%N.
Proof.
move=> /orP[/eqP->|/andP[hL hx]] hy; first by rewrite mul0r size_poly0.
apply: leq_trans (size_mul_leq _ _) _; rewrite -(prednK hL) mulnS; move: hx hy; move: (m * L.-1)%N (size x) (size y) => a b c; slia.
Qed.
Lemma fold_constraints_deg (limits : N * N) theta cs l s acc :
  List.Forall (fun c : plonk_constraint F => degree_fits c /\ N.lt (N.add (compute_max_degree c) 1) (N.pow 2 32) /\ N.le (N.add (compute_max_degree c) 1) limits.1) cs ->
  below (N.to_nat limits.1) (evaluate g l) -> below (N.to_nat limits.2) (evaluate g s) ->
  let: (l', s', _) := foldl (add_constraint limits theta) (l, s, acc) cs in
  below (N.to_nat limits.1) (evaluate g l') /\ below (N.to_nat limits.2) (evaluate g s').
Proof.
elim: cs l s acc => [|c cs ih] l s acc hc hl hs //=.
case/List.Forall_cons_iff: hc => -[h1 [h2 h3]] hcs; rewrite {2}/add_constraint /u32 N.mod_small //.
have hnt L : N.le (N.add (compute_max_degree c) 1) L ->
    below (N.to_nat L) (evaluate g (e_mul (convert_expr id polyC c) (expr_const variable (acc%:P : PR)))).
  move=> hL; rewrite e_mul_val /= eval_termE /= big_nil mulr1; apply/orP; right; apply/andP; split.
    by apply/ltP; lia.
  rewrite mulrC mul_polyC; apply: leq_trans (size_scale_leq _ _) _.
  apply: leq_trans (@size_subst _ _ F id g m hg c) _; rewrite ltnS leq_mul2l; apply/orP; right.
  by rewrite -degree_exact //; apply/leP; lia.
case: N.leb_spec0 => hL; apply: ih => //; rewrite e_add_assign_val; apply: below_add => //; exact: hnt.
Qed.
Lemma fold_gates_deg (limits : N * N) theta gates l s acc :
  List.Forall (fun gt : plonk_gate F => List.Forall (fun c : plonk_constraint F => degree_fits c /\ N.lt (N.add (compute_max_degree c) 1) (N.pow 2 32)
    /\ N.le (N.add (compute_max_degree c) 1) limits.1) (g_constraints gt)) gates ->
  (size (evaluate g l) <= (m * N.to_nat limits.1).+1)%N -> (size (evaluate g s) <= (m * N.to_nat limits.2).+1)%N ->
  let: (l', s', _) := foldl (add_gate limits theta) (l, s, acc) gates in
  (size (evaluate g l') <= (m * N.to_nat limits.1).+1)%N /\ (size (evaluate g s') <= (m * N.to_nat limits.2).+1)%N.
Proof.
elim: gates l s acc => [|gt gates ih] l s acc hc hl hs //=.
case/List.Forall_cons_iff: hc => hc hcs; rewrite {2}/add_gate.
have := @fold_constraints_deg limits theta (g_constraints gt) expr_nil expr_nil acc hc.
have e0 : evaluate g expr_nil = 0 by rewrite /= eval_termE /= mul0r.
rewrite !e0 => /(_ (below0 _) (below0 _)).
case: (foldl (add_constraint _ _) _ _) => -[gl gs] gacc [h1 h2].
have hsel : (size (evaluate g (expr_var [comRingType of {poly F}] (PlonkVariable (g_selector gt) 0 false CSelector))) <= m.+1)%N.
  by rewrite /= eval_termE /= big_seq1 mul1r.
by apply: ih => //; rewrite e_add_assign_val e_mul_val; apply: leq_trans (size_add _ _) _; rewrite geq_max ?hl ?hs /=; apply: below_mul.
Qed.
End Degrees.
End Gates.
