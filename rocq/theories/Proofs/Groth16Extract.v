(** Groth16: the exponents of the key as linear forms in the trapdoor, and the algebra of the extraction. *)
From mathcomp Require Import all_ssreflect all_algebra.
From Verif.Model Require Import Base LinearCombination ConstraintSystems Domain ArithmeticPrograms KnowledgeCommitment Groth16.
From Verif.Spec Require Import LinearSpec GroupSpec AlgebraicSpec.
From Verif.Proofs Require Import NatTac FieldTac LinearProofs DomainProofs ProgramProofs QapProofs KcProofs Groth16Proofs
  PghrProofs UscsSnarkProofs SeSnarkProofs.
From Verif.Props Require Import C02_R1csSemantics.
Set Implicit Arguments.
Unset Strict Implicit.
Unset Printing Implicit Defensive.
Import GRing.Theory.
Local Open Scope ring_scope.

Section Algebra.
Variable F : fieldType.
Add Field Ff_g16x : (@ffield_theory F).

Lemma linear_zero (q0 q1 : F) l : uniq l -> (1 < size l)%N -> (forall a, a \in l -> q0 + q1 * a = 0) -> q0 = 0 /\ q1 = 0.
Proof.
move=> ul ll h; have hl := @list_zero _ [:: q0; q1] l ul ll.
have {}hl : forall i, nth 0 [:: q0; q1] i = 0.
  by apply: hl => g /h hg; rewrite /= !cons_poly_def !hornerE /= -[RHS]hg; fring F.
by split; [have := hl 0%N | have := hl 1%N].
Qed.

(** The verification equation as an identity in alpha, beta (degrees 1, 2) and delta (Laurent, degrees -1 to 2). *)
Lemma g16_algebra (p0 p1 q0 q1 r0 r1 r2 p0' p1' q0' q1' r0' r1' r2' bb bd b0 vA vB vC : F) (als bs ds : seq F) :
  uniq als -> (1 < size als)%N -> uniq bs -> (2 < size bs)%N -> uniq ds -> (2 < size ds)%N -> 0 \notin ds ->
  (forall a b d, a \in als -> b \in bs -> d \in ds ->
    (a * (p0 + p1 / d) + b * (q0 + q1 / d) + (r0 + r1 / d + r2 * d)) * (bb * b + bd * d + b0)
    = a * b + (b * vA + a * vB + vC)
      + d * (a * (p0' + p1' / d) + b * (q0' + q1' / d) + (r0' + r1' / d + r2' * d))) ->
  (vA + q1') * (vB + p1') = vC + r1'.
Proof.
move=> ua la ub lb ud ld d0 h.
have H d : d \in ds ->
  (vA + q1' + d * q0') * (vB + p1' + d * p0') = vC + r1' + d * r0' + d ^+ 2 * r2'.
  move=> hd; have nd : d != 0 by apply: contraNneq d0 => <-.
  pose U := p0 + p1 / d; pose X := q0 + q1 / d; pose Y := r0 + r1 / d + r2 * d; pose D := bd * d + b0.
  pose P := d * p0' + p1'; pose Q := d * q0' + q1'; pose R := d * r0' + r1' + d ^+ 2 * r2'.
  have hb b : b \in bs -> (b * X + Y) * (bb * b + D) - b * vA - vC - b * Q - R = 0 /\ U * (bb * b + D) - b - vB - P = 0.
    move=> hb; apply: (linear_zero ua la) => a ha; have /eqP := h a b d ha hb hd.
    rewrite -subr_eq0 => /eqP <-; rewrite /U /X /Y /D /P /Q /R; clear -nd; ffield F.
  have [|u1 u2] := @linear_zero (U * D - vB - P) (U * bb - 1) bs ub (ltnW lb).
    by move=> b /hb [_ hh]; rewrite -[RHS]hh; fring F.
  have [|x1 x2 x3] := @quad_zero _ (Y * D - vC - R) (X * D + Y * bb - vA - Q) (X * bb) bs ub lb.
    by move=> b /hb [hh _]; rewrite -[RHS]hh; fring F.
  have bb0 : bb != 0 by apply: contra_eq_neq u2 => ->; rewrite mulr0 add0r oppr_eq0 oner_eq0.
  have X0 : X = 0 by apply/eqP; move/eqP: x3; rewrite mulf_eq0 (negPf bb0) orbF.
  have e1 : vB + P = U * D by apply/eqP; rewrite -subr_eq0 -oppr_eq0 -u1; apply/eqP; fring F.
  have e2 : vA + Q = Y * bb.
    by apply/eqP; rewrite -subr_eq0 -oppr_eq0 -x2 X0; apply/eqP; fring F.
  have e3 : vC + R = Y * D by apply/eqP; rewrite -subr_eq0 -oppr_eq0 -x1; apply/eqP; fring F.
  have e4 : U * bb = 1 by apply/eqP; rewrite -subr_eq0 u2.
  have -> : vA + q1' + d * q0' = vA + Q by rewrite /Q; fring F.
  have -> : vB + p1' + d * p0' = vB + P by rewrite /P; fring F.
  have -> : vC + r1' + d * r0' + d ^+ 2 * r2' = vC + R by rewrite /R; fring F.
  by rewrite e1 e2 e3 -[Y * D]mul1r -e4; fring F.
have [|e1 _ _] := @quad_zero _ ((vA + q1') * (vB + p1') - (vC + r1'))
   (q0' * (vB + p1') + (vA + q1') * p0' - r0') (q0' * p0' - r2') ds ud ld.
  by move=> d /H /eqP; rewrite -subr_eq0 => /eqP <-; fring F.
by apply/eqP; rewrite -subr_eq0 e1.
Qed.
End Algebra.

Section Ev.
Variable F : fieldType.
Add Field Ff_g16y : (@ffield_theory F).
Local Notation FL := (GRing.regular_lmodType F).

(** Exponents of G1 elements: coefficients of alpha, alpha/delta, beta, beta/delta, 1, 1/delta, delta. *)
Record vec7 := Vec7 { v_p0 : F; v_p1 : F; v_q0 : F; v_q1 : F; v_r0 : F; v_r1 : F; v_r2 : F }.
Definition ev7 (v : vec7) (a b d : F) : F :=
  a * (v_p0 v + v_p1 v / d) + b * (v_q0 v + v_q1 v / d) + (v_r0 v + v_r1 v / d + v_r2 v * d).
Definition co (c : seq F) (E : seq vec7) (f : vec7 -> F) : F := lin c ([seq f v | v <- E] : seq FL).

Lemma lin_ev7 (c : seq F) (E : seq vec7) a b d : lin c ([seq ev7 v a b d | v <- E] : seq FL)
  = a * (co c E v_p0 + co c E v_p1 / d) + b * (co c E v_q0 + co c E v_q1 / d)
    + (co c E v_r0 + co c E v_r1 / d + co c E v_r2 * d).
Proof.
rewrite /co /lin !size_map !mulr_suml -!big_split !mulr_sumr -!big_split /=; apply: eq_bigr => i _.
rewrite !(nth_map (Vec7 0 0 0 0 0 0 0)) // /ev7 /GRing.scale /=.
by move: (nth _ E i) => [x1 x2 x3 x4 x5 x6 x7] /=; move: (nth 0 c i) d^-1 => k d'; fring F.
Qed.

(** Exponents of G2 elements: coefficients of beta, delta, 1. *)
Definition ev3 (v : F * F * F) (b d : F) : F := v.1.1 * b + v.1.2 * d + v.2.
Lemma lin_ev3 (c : seq F) (E : seq (F * F * F)) : exists bb bd b0, forall b d,
  lin c ([seq ev3 v b d | v <- E] : seq FL) = bb * b + bd * d + b0.
Proof.
exists (lin c ([seq v.1.1 | v <- E] : seq FL)), (lin c ([seq v.1.2 | v <- E] : seq FL)), (lin c ([seq v.2 | v <- E] : seq FL)).
move=> b' d'; rewrite /lin !size_map !mulr_suml -!big_split /=; apply: eq_bigr => i _.
rewrite !(nth_map (0, 0, 0)) // /ev3 /GRing.scale /=.
by move: (nth _ E i) => [[x1 x2] x3] /=; move: (nth 0 c i) => k; fring F.
Qed.
End Ev.

Section Els.
Variables (F : fieldType) (G1 G2 GT : lmodType F).
Variable e : G1 -> G2 -> GT.
Add Field Ff_g16z : (@ffield_theory F).
Local Notation FL := (GRing.regular_lmodType F).
Variables (cs : r1cs F) (dom : seq F).
Hypothesis wf : r1cs_wf cs.
Hypothesis ldom : (r_num_constraints cs + r_num_inputs cs + 1 <= size dom)%N.
Notation n := (r_num_variables cs).
Notation ni := (r_num_inputs cs).
Notation m := (size dom).
Variables (t alpha beta gamma delta : F) (g1 : G1) (g2 : G2) (chunks : nat).
Local Notation Z := (zeval dom t).

Definition abc7 (q : qap_eval F) i := Vec7 0 (nth 0 (qe_Bt q) i) 0 (nth 0 (qe_At q) i) 0 (nth 0 (qe_Ct q) i) 0.
Definition gabc7 (q : qap_eval F) i :=
  Vec7 (nth 0 (qe_Bt q) i / gamma) 0 (nth 0 (qe_At q) i / gamma) 0 (nth 0 (qe_Ct q) i / gamma) 0 0.
Definition const7 (x : F) := Vec7 0 0 0 0 x 0 0.
Definition vecs1 (q : qap_eval F) : seq (vec7 F) :=
  [seq abc7 q (ni.+1 + i) | i <- iota 0 (n - ni)]
  ++ [seq Vec7 0 0 0 0 0 (Z * x) 0 | x <- powers t (m - 1)]
  ++ [:: Vec7 1 0 0 0 0 0 0; Vec7 0 0 1 0 0 0 0; Vec7 0 0 0 0 0 0 1]
  ++ [seq const7 x | x <- qe_At q] ++ [seq const7 (1 * nth 0 (qe_Bt q) i) | i <- kc_support (qe_Bt q)]
  ++ [seq gabc7 q i | i <- iota 0 ni.+1] ++ [:: const7 1].
Definition vecs2 (q : qap_eval F) : seq (F * F * F) :=
  [:: (1, 0, 0); (0, 1, 0); (0, 0, gamma)] ++ [seq (0, 0, 1 * nth 0 (qe_Bt q) i) | i <- kc_support (qe_Bt q)] ++ [:: (0, 0, 1)].

Lemma g16_els q pk vk : qap_instance_map_with_evaluation dom (swap_AB_if_beneficial cs) t = Some q ->
  gamma != 0 -> delta != 0 ->
  g16_generator e dom cs t alpha beta gamma delta g1 g2 chunks = Some (pk, vk) ->
  pk_L_query pk ++ pk_H_query pk ++ [:: pk_alpha_g1 pk; pk_beta_g1 pk; pk_delta_g1 pk] ++ pk_A_query pk
  ++ [seq v.2 | v <- kv_values (pk_B_query pk)] ++ (vk_gamma_ABC_first vk :: vk_gamma_ABC_rest vk) ++ [:: g1]
  = batch_exp g1 [seq ev7 v alpha beta delta | v <- vecs1 q] /\
  [:: pk_beta_g2 pk; pk_delta_g2 pk; vk_gamma_g2 vk] ++ [seq v.1 | v <- kv_values (pk_B_query pk)] ++ [:: g2]
  = batch_exp g2 [seq ev3 v beta delta | v <- vecs2 q].
Proof.
move=> E g0 d0; rewrite /g16_generator E {1}/obnd kc_batch_expE {1}/obnd.
have [q' [E' [_ [qi qv qH qZ qd]]]] := @qap_shape _ cs dom wf ldom t.
move: E'; rewrite E => -[E']; rewrite -E' {q' E'} in qi qv qH qZ qd.
have eP : take (size (qe_Ht q) - 2) (qe_Ht q) = powers t (m - 1).
  rewrite qH size_powers; apply: (@eq_from_nth _ 0); first by rewrite size_takel ?size_powers //; slia.
  rewrite size_takel ?size_powers; last by slia.
  move=> i hi; rewrite nth_take // !nth_powers //; slia.
rewrite eP qi qv qZ {eP}.
have eI : iota 0 ni.+1 = 0%N :: iota 1 ni by [].
rewrite /vecs1 /vecs2 eI; move: (powers _ _) (iota 1 ni) (iota 0 _) (kc_support _) => P I I' K [<- <-] /=.
rewrite /batch_exp /batch_exp_with_coeff !map_cat /= !map_cat /= !map_cat /= -!map_comp; split.
  congr (_ ++ (_ ++ [:: _, _, _ & _ ++ (_ ++ (_ :: (_ ++ [:: _])))])). 
  - apply: eq_map => x /=; rewrite /ev7 /abc_at /=; congr (_ *: _); clear -d0; ffield F.
  - apply: eq_map => x /=; rewrite /ev7 /=; congr (_ *: _); clear -d0; ffield F.
  - rewrite /ev7 /=; congr (_ *: _); clear -d0; ffield F.
  - rewrite /ev7 /=; congr (_ *: _); clear -d0; ffield F.
  - rewrite /ev7 /=; congr (_ *: _); clear -d0; ffield F.
  - apply: eq_map => x /=; rewrite /ev7 /=; congr (_ *: _); clear -d0; ffield F.
  - apply: eq_map => x /=; rewrite /ev7 /=; congr (_ *: _); clear -d0; ffield F.
  - rewrite /ev7 /abc_at /=; congr (_ *: _); clear -d0 g0; ffield F; by rewrite d0 g0.
  - apply: eq_map => x /=; rewrite /ev7 /abc_at /=; congr (_ *: _); clear -d0 g0; ffield F; by rewrite d0 g0.
  - rewrite -[g1 in LHS]scale1r; congr (_ *: _); rewrite /ev7 /=; clear -d0; ffield F.
congr ([:: _, _, _ & _ ++ [:: _]]).
- by rewrite /ev3 /=; congr (_ *: _); fring F.
- by rewrite /ev3 /=; congr (_ *: _); fring F.
- by rewrite /ev3 /=; congr (_ *: _); fring F.
- by apply: eq_map => x /=; rewrite /ev3 /=; congr (_ *: _); fring F.
by rewrite -[g2 in LHS]scale1r; congr (_ *: _); rewrite /ev3 /=; fring F.
Qed.
End Els.

Section Coef.
Variable F : fieldType.
Add Field Ff_g16w : (@ffield_theory F).
Local Notation FL := (GRing.regular_lmodType F).
Variables (cs : r1cs F) (dom : seq F) (t : F).
Notation n := (r_num_variables cs).
Notation ni := (r_num_inputs cs).
Notation m := (size dom).
Local Notation Z := (zeval dom t).

Lemma sat_conv (q : qap_eval F) (H x : seq F) :
  size (qe_At q) = n.+1 -> size (qe_Bt q) = n.+1 -> size (qe_Ct q) = n.+1 ->
  qe_num_inputs q = ni -> qe_num_variables q = n -> qe_Ht q = powers t m.+1 -> qe_Zt q = zeval dom t -> qe_degree q = m ->
  qe_domain q = dom -> qe_t q = t -> size x = n -> size H = m.+1 ->
  part (qe_At q) x 0 n.+1 * part (qe_Bt q) x 0 n.+1 - part (qe_Ct q) x 0 n.+1 = (Poly H).[t] * zeval dom t ->
  qap_eval_is_satisfied q (QapWitness n m ni 0 0 0 x H).
Proof.
move=> sA sB sC qi qv qH qZ qd qD qt sx sH h; rewrite /qap_eval_is_satisfied.
rewrite qv qd qi sA sB sC qH qZ qD qt; cbn [qw_num_variables qw_degree qw_num_inputs qw_ABCs qw_H qw_d1 qw_d2 qw_d3].
rewrite sx sH size_powers !eqxx.
have hH := @inner_powers _ t m.+1 _ sH.
move: (powers t m.+1) hH => Ht hH; cbv beta iota delta [orb negb].
by rewrite !mul0r !addr0 (part_headN sA sx) (part_headN sB sx) (part_headN sC sx) add0r hH h eqxx.
Qed.

Definition g16_aux (c : seq F) : seq F := mkseq (nth 0 c) (n - ni).
Definition g16_h (c : seq F) : seq F := mkseq (fun i => if (i < m - 1)%N then nth 0 c (n - ni + i) else 0) m.+1.

Lemma lin_priv7 (u c primary : seq F) : size primary = ni ->
  lin c ([seq nth 0 u (ni.+1 + i) | i <- iota 0 (n - ni)] : seq FL) = part u (primary ++ g16_aux c) ni.+1 n.+1.
Proof.
move=> sp; rewrite /part /lin size_map size_iota -{2}[ni.+1]add0n big_addn subSS big_mkord.
apply: eq_bigr => i _; rewrite (nth_map 0%N) ?size_iota // nth_iota // add0n /GRing.scale /= mulrC.
rewrite addSn addnS [(i + ni)%N]addnC /= nth_cat sp ltnNge leq_addr /= addKn.
by rewrite nth_mkseq.
Qed.

Lemma lin_h7 (c : seq F) : lin (drop (n - ni) c) ([seq Z * x | x <- powers t (m - 1)] : seq FL) = (Poly (g16_h c)).[t] * Z.
Proof.
rewrite (@horner_coef_wide _ m.+1) ?(leq_trans (size_Poly _)) ?size_mkseq // mulr_suml.
rewrite /lin size_map size_powers.
have lm : (m - 1 <= m.+1)%N by slia.
rewrite (big_ord_widen _ (fun i => nth 0 (drop (n - ni) c) i *: ((nth 0 [seq Z * x | x <- powers t (m - 1)] i) : FL)) lm) big_mkcond.
apply: eq_bigr => i _; rewrite coef_Poly (nth_mkseq _ _ (ltn_ord i)); case: ifP => hi; last by rewrite !mul0r.
rewrite (nth_map 0) ?size_powers // nth_powers // nth_drop /GRing.scale /=.
by move: (nth 0 c _) (t ^+ i) => a b; fring F.
Qed.

Lemma co_zero (c : seq F) (E : seq (vec7 F)) f : all (fun v => f v == 0) E -> co c E f = 0.
Proof.
move=> h; rewrite /co /lin big1 // => i _; have hi : (i < size E)%N by rewrite -(size_map f) ltn_ord.
by rewrite (nth_map (Vec7 0 0 0 0 0 0 0)) //; move/(all_nthP (Vec7 0 0 0 0 0 0 0)): h => /(_ _ hi) /eqP ->; rewrite scaler0.
Qed.

Lemma g16_coef (gamma : F) (q : qap_eval F) (c primary : seq F) : size primary = ni ->
  [/\ co c (vecs1 cs dom t gamma q) (@v_p1 F) = part (qe_Bt q) (primary ++ g16_aux c) ni.+1 n.+1,
      co c (vecs1 cs dom t gamma q) (@v_q1 F) = part (qe_At q) (primary ++ g16_aux c) ni.+1 n.+1
    & co c (vecs1 cs dom t gamma q) (@v_r1 F) = part (qe_Ct q) (primary ++ g16_aux c) ni.+1 n.+1 + (Poly (g16_h c)).[t] * Z].
Proof.
move=> sp; rewrite -!lin_priv7 // -lin_h7 /co /vecs1.
set I := iota 0 ni.+1; clearbody I; move: (kc_support _) (powers _ _) => K P.
set tl := _ ++ _ ++ _ ++ _ ++ [:: const7 1].
have ht f : f (Vec7 1 0 0 0 0 0 0) = 0 -> f (Vec7 0 0 1 0 0 0 0) = 0 -> f (Vec7 0 0 0 0 0 0 1) = 0 ->
  (forall x, f (const7 x) = 0) -> (forall i, f (gabc7 gamma q i) = 0) -> all (fun v => f v == 0) tl.
  move=> h1 h2 h3 h4 h5; rewrite /tl !all_cat /= h1 h2 h3 !all_map eqxx h4 eqxx /=.
  by apply/and3P; split; try apply/andP; try split=> //; apply/allP => x _ /=; rewrite ?h4 ?h5.
clearbody tl.
have hs f c' : all (fun v => f v == 0) tl -> lin c' ([seq f v | v <- tl] : seq FL) = 0 := @co_zero c' tl f.
rewrite !map_cat -!map_comp; split; rewrite lin_cat lin_cat !hs ?addr0 ?ht // ?size_map ?size_iota //.
- by rewrite [X in _ + X]lin_zeros ?addr0.
- by rewrite [X in _ + X]lin_zeros ?addr0.
Qed.
End Coef.
