(** C63: what the linearization of the pickles verifier checks. *)
From mathcomp Require Import all_ssreflect all_algebra.
From Verif.Model Require Import Base OrderedMap Domain KimchiTranscript PicklesExpr PicklesVerifier.
From Verif.Proofs Require Import NatTac FieldTac PicklesExprProofs.
From Verif.Props Require Import C05_R1csToQap C61_KimchiTranscript C62_PicklesExpr.
Set Implicit Arguments.
Unset Strict Implicit.
Unset Printing Implicit Defensive.
Import GRing.Theory.
Local Open Scope ring_scope.

Section Ring.
Variable F : fieldType.
Add Field Ff_pickles_verifier : (@ffield_theory F).
Lemma linearization_ring (g G0 G1 q ft a0 a1 a2 zkp z z' U V Z A B p : F) :
  ft - q = a0 * zkp * (z' * U - z * V) - p + a1 * Z * B * (1 - z) + a2 * Z * A * (1 - z) ->
  q + g * (a0 * G0 + a1 * G1) - ft = a0 * (zkp * (z * V - z' * U) + g * G0) + a1 * (Z * B * (z - 1) + g * G1) + a2 * (Z * A * (z - 1)) + p.
Proof. by move/(canRL (subrK _)) => ->; fring F. Qed.
End Ring.

(** The constraints at the point zeta: the permutation, its boundaries and the two generic gates. *)
Section Constraints.
Variable F : fieldType.
Variables (n : nat) (curr next : evaluations F) (c : constants F) (zeta zkp iw sigma : F) (shift coef : seq F).
Definition C63_permutation_constraint : F :=
  zkp * (ev_zc curr * \prod_(i < 7) (nth 0 (ev_w curr) i + c_beta c * zeta * nth 0 shift i + c_gamma c)
         - ev_zc next * \prod_(i < 7) (nth 0 (ev_w curr) i + c_beta c * nth sigma (ev_s curr) i + c_gamma c)).
Definition C63_boundary (point : F) : F := (zeta ^+ n - 1) / (zeta - point) * (ev_zc curr - 1).
Definition C63_generic_constraint (k : nat) : F :=
  let W i := nth 0 (ev_w curr) (3 * k + i)%N in let C i := nth 0 coef (5 * k + i)%N in
  ev_generic curr * (C 0%N * W 0%N + C 1%N * W 1%N + C 2%N * W 2%N + C 3%N * (W 0%N * W 1%N) + C 4%N).
End Constraints.

(** The value of the combined commitments minus ft_eval0, without further gates: both the permutation and the generic gates are
    multiplied by the powers of alpha of the permutation. *)
Theorem C63_linearization (F : fieldType) (n : nat) (omega : F) (regs : seq (nat * nat)) (alpha : F) (curr next : evaluations F) (c : constants F)
    (zeta zkp iw p sigma : F) (shift coef : seq F) (lookup : bool) (tables : nat) :
  size (ev_w curr) = 15%N -> size (ev_s curr) = 6%N -> size shift = 7%N -> zeta != iw -> zeta != 1 ->
  arg_permutation \in unzip1 regs -> (3 <= nth 0 (unzip2 regs) (index arg_permutation (unzip1 regs)))%N ->
  let al := al_instantiate (foldl (fun al r => al_register al r.1 r.2) (al_new _ F) regs) alpha in
  let start := sumn (take (index arg_permutation (unzip1 regs)) (unzip2 regs)) in
  exists terms ft, f_terms n omega al [:: curr; next] c zeta zkp lookup tables [::] = Some terms /\
    ft_eval0 n omega al [:: curr; next] c zeta zkp iw p shift [:: TLiteral 0] = Some ft /\
    (forall value : commitment_name -> F, value (NSigma 6) = sigma -> (forall i, value (NCoefficient i) = nth 0 coef i) ->
      \sum_(t <- terms) t.1 * value t.2 - ft =
        alpha ^+ start * (C63_permutation_constraint curr next c zeta zkp sigma shift + C63_generic_constraint curr coef 0)
        + alpha ^+ start.+1 * (C63_boundary n curr zeta 1 + C63_generic_constraint curr coef 1)
        + alpha ^+ start.+2 * C63_boundary n curr zeta iw + p).
Proof.
move=> hw hs hh n1 n2 r1 r2 al start; have [ag _] := C61_alphas regs alpha.
have {ag} ag : al_get al arg_permutation 3 = Some [:: alpha ^+ start; alpha ^+ start.+1; alpha ^+ start.+2].
  by rewrite /al ag r1 r2 /= addn0 addn1 addn2.
have hw6 : (6 <= size (ev_w curr))%N by rewrite hw.
move: (alpha ^+ start) (alpha ^+ start.+1) (alpha ^+ start.+2) ag => a0 a1 a2 ag.
have [ft [ps [e1 [e2 e3]]]] := @C62_permutation F curr next (c_beta c) (c_gamma c) zeta zkp iw p a0 a1 a2 sigma n shift hw hs hh n1 n2.
have [gs [g1 [g2 g3]]] := @C62_generic F (ev_w curr) coef a0 a1 (ev_generic curr) hw6.
have gn : gnrc_scalars [:: a0; a1; a2] (ev_w curr) (ev_generic curr) = Some gs by rewrite -g1.
have obS (A B : Type) (x : A) (f : A -> option B) : obnd (Some x) f = f x by [].
exists ((ps, NSigma 6) :: zip gs [seq NCoefficient i | i <- iota 0 (size gs)]), ft; split; [|split].
- by rewrite /f_terms /linearization_head ag obS e2 obS (_ : vget _ 0 = Some curr) // obS gn.
- by rewrite /ft_eval0 ag obS e1 obS /polish_evaluate /= subr0.
move=> value v1 v2; rewrite big_cons /= v1.
have -> : \sum_(t <- zip gs [seq NCoefficient i | i <- iota 0 (size gs)]) t.1 * value t.2 = \sum_(i < 10) nth 0 gs i * nth 0 coef i.
  rewrite (big_nth (0, NZ)) size_zip size_map size_iota minnn g2 big_mkord; apply: eq_bigr => i _.
  rewrite nth_zip ?size_map ?size_iota ?g2 //; congr (_ * _); rewrite -v2 /snd; congr value.
  by rewrite (nth_map 0%N) ?size_iota // nth_iota.
rewrite g3 /C63_permutation_constraint /C63_generic_constraint /C63_boundary.
exact: (linearization_ring _ _ _ e3).
Qed.

(** The generic gate is not multiplied by powers of its own: a violated permutation and a violated gate cancel, for every alpha. *)
Theorem C63_shared_alpha_refuted : exists (F : fieldType) (curr next : evaluations F) (c : constants F) (zeta zkp iw sigma : F) (shift coef : seq F),
  C63_permutation_constraint curr next c zeta zkp sigma shift != 0 /\ C63_generic_constraint curr coef 0 != 0 /\
  forall (n : nat) (omega alpha : F) (tables : nat) (regs : seq (nat * nat)), let al := al_instantiate (foldl (fun al r => al_register al r.1 r.2) (al_new _ F) regs) alpha in
    regs = [:: (arg_gate, 21); (arg_permutation, 3)]%N ->
    exists terms ft, f_terms n omega al [:: curr; next] c zeta zkp false tables [::] = Some terms /\
      ft_eval0 n omega al [:: curr; next] c zeta zkp iw 0 shift [:: TLiteral 0] = Some ft /\
      (forall value : commitment_name -> F, value (NSigma 6) = sigma -> (forall i, value (NCoefficient i) = nth 0 coef i) ->
        \sum_(t <- terms) t.1 * value t.2 - ft = 0).
Proof.
pose curr : evaluations C05_F := Evaluations (nseq 15 0) 1 (nseq 6 0) [::] 0 0 0 false false 1 0.
pose c : constants C05_F := Constants 0 1 1 0 0 [::].
pose shift : seq C05_F := [:: 1; 2%:R; 3%:R; 4%:R; 5%:R; 6%:R; 7%:R]; pose coef : seq C05_F := [:: 0; 0; 0; 0; 1].
have pE : C63_permutation_constraint curr curr c (-1) 1 0 shift = -1.
  by rewrite /C63_permutation_constraint !big_ord_recl !big_ord0; apply/eqP; vm_compute.
have gE : C63_generic_constraint curr coef 0 = 1 by apply/eqP; vm_compute.
have gE1 : C63_generic_constraint curr coef 1 = 0 by apply/eqP; vm_compute.
exists [fieldType of C05_F], curr, curr, c, (-1), 1, 0, 0, shift, coef; split; first by rewrite pE.
split; first by rewrite gE.
move=> n omega alpha tables regs al hr.
have z1 : (-1 : C05_F) != 0 by vm_compute.
have z2 : (-1 : C05_F) != 1 by vm_compute.
have h1 : arg_permutation \in unzip1 regs by rewrite hr.
have h2 : (3 <= nth 0 (unzip2 regs) (index arg_permutation (unzip1 regs)))%N by rewrite hr.
have [terms [ft [e1 [e2 e3]]]] := @C63_linearization [fieldType of C05_F] n omega regs alpha curr curr c (-1) 1 0 0 0 shift coef false tables
  erefl erefl erefl z1 z2 h1 h2.
exists terms, ft; split=> //; split=> // value v1 v2; rewrite (e3 value v1 v2) pE gE gE1 /C63_boundary.
have -> : ev_zc curr - 1 = 0 by rewrite subrr.
by rewrite addNr !mulr0 !addr0 !mulr0 !addr0.
Qed.

(** Terms of the lookup selectors and of the lookup table are dropped exactly when lookups are used. *)
Theorem C63_lookup_dropped_refuted (F : fieldType) (n : nat) (omega : F) al (evals : seq (evaluations F)) (c : constants F) (zeta zkp : F) (tables : nat)
    (before after : seq (column * seq (token F))) (toks : seq (token F)) (x : F) (table : bool) :
  polish_evaluate n omega zeta evals c toks = Some x ->
  f_terms n omega al evals c zeta zkp true tables (before ++ (if table then CLookupTable else CLookupKindIndex, toks) :: after) =
  f_terms n omega al evals c zeta zkp true tables (before ++ after).
Proof.
move=> e; rewrite /f_terms; case: (linearization_head _ _ _ _ _) => //= head; rewrite !ofold_cat; case: (ofold _ _ _) => //= acc.
by rewrite e /=; case: table => /=; rewrite cats0.
Qed.

(** Without lookups, a further term adds its value times the value of its column; the table is the combination of its columns. *)
Definition C63_column_value (F : fieldType) (tables : nat) (joint : F) (v : commitment_name -> F) (col : column) : F :=
  match col with
  | CWitness i => v (NWitness i) | CCoefficient i => v (NCoefficient i) | CZ => v NZ | CLookupSorted i => v (NLookupSorted i)
  | CLookupAggreg => v NLookupAggreg | CLookupKindIndex => v NLookupSelector | CIndex g => v (NGate g)
  | CLookupTable => \sum_(k < tables) joint ^+ k * v (NLookupTable k)
  | CLookupRuntimeSelector | CLookupRuntimeTable => 0
  end.
Theorem C63_index_terms (F : fieldType) (n : nat) (omega : F) al (evals : seq (evaluations F)) (c : constants F) (zeta zkp : F) (tables : nat)
    (terms : seq (column * seq (token F))) (l : seq (F * commitment_name)) (col : column) (toks : seq (token F)) (x : F) : (0 < tables)%N ->
  f_terms n omega al evals c zeta zkp false tables terms = Some l -> polish_evaluate n omega zeta evals c toks = Some x ->
  exists l', f_terms n omega al evals c zeta zkp false tables (rcons terms (col, toks)) = Some (l ++ l') /\
    forall v, \sum_(t <- l') t.1 * v t.2 = x * C63_column_value tables (c_joint_combiner c) v col.
Proof.
move=> h0; rewrite /f_terms; case: (linearization_head _ _ _ _ _) => //= head e1 e2; rewrite -cats1 ofold_cat e1 /= e2 /=.
case: col => [i|||||||| g|i] //=; rewrite ?h0 /=; eexists; split=> [//|v]; rewrite ?big_seq1 ?big_nil ?mulr0 //.
have -> : iota 0 tables = index_iota 0 tables by rewrite /index_iota subn0.
by rewrite big_map big_mkord mulr_sumr; apply: eq_bigr => k _; rewrite mulrA.
Qed.

(** Concrete cases *)
Example C63_linearization_witness : [/\ size (ev_w (C62_e 0)) = 15%N, size (ev_s (C62_e 0)) = 6%N, arg_permutation \in unzip1 [:: (arg_gate, 21); (arg_permutation, 3)]%N &
  omap size (f_terms 4 4%:R (al_instantiate (foldl (fun al r => al_register al r.1 r.2) (al_new _ _) [:: (arg_gate, 21); (arg_permutation, 3)]%N) 3%:R)
    [:: C62_e 0; C62_e 1] C62_c 2%:R 5%:R false 2 [:: (CLookupTable, [:: TAlpha _]); (CZ, [:: TBeta _])]) = Some 14%N].
Proof. by vm_compute. Qed.
Example C63_lookup_witness : polish_evaluate 4 4%:R 2%:R [:: C62_e 0; C62_e 1] C62_c [:: TAlpha _; TBeta _; TMul _] = Some (6%:R : C05_F).
Proof. by apply/eqP; vm_compute. Qed.

Print Assumptions C63_linearization.
Print Assumptions C63_index_terms.
Print Assumptions C63_shared_alpha_refuted.
Print Assumptions C63_lookup_dropped_refuted.
