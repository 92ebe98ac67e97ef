(** Proofs about the expressions of pickles. *)
From mathcomp Require Import all_ssreflect all_algebra.
From Verif.Model Require Import Base OrderedMap Domain KimchiPedersen PicklesExpr.
From Verif.Spec Require Import PicklesExprSpec.
From Verif.Proofs Require Import NatTac FieldTac LinearProofs DomainProofs KimchiProofs.
Set Implicit Arguments.
Unset Strict Implicit.
Unset Printing Implicit Defensive.
Import GRing.Theory.
Local Open Scope ring_scope.

Lemma ofold_cat (A B : Type) (f : B -> A -> option B) acc s t : ofold f acc (s ++ t) = obnd (ofold f acc s) (fun a => ofold f a t).
Proof. by elim: s acc => //= x s ih acc; case: (f acc x) => //=. Qed.

Section Expr.
Variable F : fieldType.
Variables (n : nat) (omega pt : F) (curr next : evaluations F) (c : constants F).
Hypotheses (hw : n.-primitive_root omega) (hn : (4 <= n)%N) (hpt : pt ^+ n != 1).

Lemma vanishesE : eval_vanishes_on_last_4_rows n omega pt = \prod_(n - 4 <= k < n) (pt - omega ^+ k).
Proof.
have [m e] : exists m, n = m.+4 by case: n hn => [|[|[|[|m]]]] // _; exists m.
rewrite /eval_vanishes_on_last_4_rows e; have -> : (m.+4 - 4 = m)%N by rewrite !subSS subn0.
do 4 rewrite big_ltn ?ltnS ?leqnSn ?leqW //.
rewrite big_geq // mulr1 !exprS.
move: (pt - omega ^+ m) (pt - omega * _) (pt - omega * (omega * _)) (pt - omega * (omega * (omega * _))) => a b d g.
by rewrite mulrC; congr (_ * _); rewrite mulrC; congr (_ * _); rewrite mulrC.
Qed.

Lemma lagrangeE i : unnormalized_lagrange_basis n omega i pt = \prod_(k < n | omega ^+ k != omega ^ i) (pt - omega ^+ k).
Proof.
have -> : unnormalized_lagrange_basis n omega i pt = (pt ^+ n - 1) / (pt - omega ^ i) by case: i.
have : (omega ^ i) ^+ n = 1.
  have pw k : (omega ^+ k) ^+ n = 1 by rewrite exprAC (prim_expr_order hw) expr1n.
  by case: i => k; rewrite /exprz ?exprVn pw ?invr1.
case/(prim_rootP hw) => k ->.
have nz : pt - omega ^+ k != 0.
  by rewrite subr_eq0; apply: contraNneq hpt => ->; rewrite exprAC (prim_expr_order hw) expr1n.
have -> : pt ^+ n - 1 = \prod_(j < n) (pt - omega ^+ j).
  have := congr1 (fun p : {poly F} => p.[pt]) (factor_Xn_sub_1 hw); rewrite big_mkord horner_prod !hornerE hornerXn => <-.
  by apply: eq_bigr => j _; rewrite !hornerE.
rewrite (bigD1 k) //= mulrAC divff // mul1r; apply: eq_bigl => j.
by rewrite (eq_prim_root_expr hw) !modn_small ?ltn_ord.
Qed.

Notation run := (ofold (polish_step n omega pt [:: curr; next] c)).
Notation value := (value n omega pt curr next c).
Lemma postfixE f (e : expr F) : consistent f e -> in_range curr next c e -> forall cache st,
  run (st, [seq value (f i) | i <- cache]) (postfix cache e).1 = Some (value e :: st, [seq value (f i) | i <- (postfix cache e).2]).
Proof.
elim: e => //=.
- by move=> i j _ /andP[h1 h2] cache st; rewrite (vgetE [::]) h1 /= (vgetE 0) h2.
- move=> b col _ h cache st; rewrite /variable_evaluate; case: b h => /=; case: col => //= [i|i|[]] // h; by rewrite (vgetE 0) h.
- by move=> _ _ cache st; rewrite vanishesE.
- by move=> i _ _ cache st; rewrite lagrangeE.
- by move=> e ih k h1 h2 cache st; move: (ih h1 h2 cache st); case: (postfix cache e) => t ca /= E; rewrite ofold_cat E.
- move=> e ih e' ih' [h1 h1'] /andP[h2 h2'] cache st; move: (ih h1 h2 cache st); case: (postfix cache e) => t ca /= E.
  move: (ih' h1' h2' ca (value e :: st)); case: (postfix ca e') => t' ca' /= E'.
  by rewrite ofold_cat E /= ofold_cat E'.
- move=> e ih e' ih' [h1 h1'] /andP[h2 h2'] cache st; move: (ih h1 h2 cache st); case: (postfix cache e) => t ca /= E.
  move: (ih' h1' h2' ca (value e :: st)); case: (postfix ca e') => t' ca' /= E'.
  by rewrite ofold_cat E /= ofold_cat E'.
- move=> e ih e' ih' [h1 h1'] /andP[h2 h2'] cache st; move: (ih h1 h2 cache st); case: (postfix cache e) => t ca /= E.
  move: (ih' h1' h2' ca (value e :: st)); case: (postfix ca e') => t' ca' /= E'.
  by rewrite ofold_cat E /= ofold_cat E'.
- by move=> e ih h1 h2 cache st; move: (ih h1 h2 cache st); case: (postfix cache e) => t ca /= E; rewrite ofold_cat E /= mulr2n.
- by move=> e ih h1 h2 cache st; move: (ih h1 h2 cache st); case: (postfix cache e) => t ca /= E; rewrite ofold_cat E /= expr2.
- move=> id e ih [he h1] h2 cache st; case: ifP => hin /=.
    by rewrite (vgetE 0) size_map index_mem hin /= (nth_map 0%N) ?index_mem // nth_index // -he.
  by move: (ih h1 h2 cache st); case: (postfix cache e) => t ca /= E; rewrite ofold_cat E /= map_rcons -he.
Qed.
End Expr.

Section Counts.
Variable F : fieldType.
Variables (n : nat) (omega pt : F) (curr next : evaluations F) (c : constants F).
Lemma countE toks st : omap (fun st : seq F * seq F => (size st.1, size st.2)) (ofold (polish_step n omega pt [:: curr; next] c) st toks) =
  foldl (count_step curr next c) (Some (size st.1, size st.2)) toks.
Proof.
have none l : foldl (count_step curr next c) None l = None by elim: l.
elim: toks st => //= t toks ih [s k] /=.
have step : omap (fun st : seq F * seq F => (size st.1, size st.2)) (polish_step n omega pt [:: curr; next] c (s, k) t) =
    count_step curr next c (Some (size s, size k)) t.
  case: t => //=.
  - by move=> i j; rewrite (vgetE [::]); case: ltnP => //= _; rewrite (vgetE 0); case: ltnP.
  - rewrite /variable_evaluate => -[|[|row]] col //=; case: col => //=; try (by move=> i; rewrite (vgetE 0); case: ltnP).
      by case.
    by case.
  - by case: s.
  - by move=> e; case: s.
  - by case: s => [|x [|y s]].
  - by case: s => [|x [|y s]].
  - by case: s => [|x [|y s]].
  - by case: s => //= x s; rewrite size_rcons.
  - by move=> j; rewrite (vgetE 0); case: ltnP.
move: step; rewrite /=; case: (polish_step _ _ _ _ _ _ _) => [[s' k']|] /= <-; [exact: ih|by rewrite none].
Qed.
End Counts.

Lemma foldl_prod (F : fieldType) (f : nat -> F) z s : foldl (fun r i => r * f i) z s = z * \prod_(i <- s) f i.
Proof. by elim: s z => [|i s ih] z /=; rewrite ?big_nil ?mulr1 // ih big_cons mulrA. Qed.

Section Ring.
Variable F : fieldType.
Add Field Ff_pickles : (@ffield_theory F).
Lemma permutation_ring (beta gamma zeta zkp iw p a0 a1 a2 sigma w6 z z' U V Z : F) : zeta != iw -> zeta != 1 ->
  (w6 + gamma) * z' * a0 * zkp * U - p - a0 * zkp * z * V +
  (Z * a1 * (zeta - iw) + Z * a2 * (zeta - 1)) * (1 - z) / ((zeta - iw) * (zeta - 1)) - - (z' * beta * a0 * zkp * U) * sigma =
  a0 * zkp * (z' * (U * (w6 + beta * sigma + gamma)) - z * V) - p + a1 * Z / (zeta - 1) * (1 - z) + a2 * Z / (zeta - iw) * (1 - z).
Proof.
rewrite -(subr_eq0 zeta iw) -(subr_eq0 zeta 1); move: (zeta - iw) (zeta - 1) => A B hA hB.
by ffield F.
Qed.
Lemma generic_ring (g a0 a1 w0 w1 w2 w3 w4 w5 c0 c1 c2 c3 c4 c5 c6 c7 c8 c9 : F) :
  a0 * g * w0 * c0 + (a0 * g * w1 * c1 + (a0 * g * w2 * c2 + (a0 * g * w0 * w1 * c3 + (a0 * g * c4 +
  (a1 * g * w3 * c5 + (a1 * g * w4 * c6 + (a1 * g * w5 * c7 + (a1 * g * w3 * w4 * c8 + (a1 * g * c9 + 0))))))))) =
  g * (a0 * (c0 * w0 + c1 * w1 + c2 * w2 + c3 * (w0 * w1) + c4) + a1 * (c5 * w3 + c6 * w4 + c7 * w5 + c8 * (w3 * w4) + c9)).
Proof. by fring F. Qed.
End Ring.

Lemma peval_blocks (F : fieldType) (m : nat) (f : seq F) (x : F) : (0 < m)%N ->
  peval [seq peval u x | u <- blocks m f] (x ^+ m) = peval f x.
Proof.
move=> hm; have cat (a b : seq F) : peval (a ++ b) x = peval a x + x ^+ size a * peval b x.
  by elim: a => [|y a ih] /=; rewrite ?add0r ?mul1r // ih exprS mulrDr addrA mulrA.
have gen k i : (size f <= m * (i + k))%N ->
    peval [seq peval u x | u <- [seq take m (drop (m * j) f) | j <- iota i k]] (x ^+ m) = peval (drop (m * i) f) x.
  elim: k i => [|k ih] i h /=; first by rewrite drop_oversize // -[i]addn0.
  rewrite ih ?addSnnS // mulnS -drop_drop; set d := drop (m * i) f.
  rewrite -{3}(cat_take_drop m d) cat; case: (leqP m (size d)) => hd; first by rewrite size_takel.
  by rewrite [drop m d]drop_oversize 1?ltnW //= !mulr0.
rewrite /blocks gen ?muln0 ?drop0 //; apply: leq_trans (leq_pmull _ hm); rewrite add0n; exact: leqnSn.
Qed.
