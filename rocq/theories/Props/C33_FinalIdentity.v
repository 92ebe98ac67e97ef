(** C33: the final identity of Placeholder. Completeness of the whole prover and verifier, with an arbitrary commitment scheme
    and with the two KZG schemes, and soundness of the identity. *)
From Coq Require Import NArith.
From mathcomp Require Import all_ssreflect all_algebra.
From Verif.Model Require Import Base OrderedMap HashMap Domain Transcript Expression PlonkVariable PlonkTable CycleRepresentation PolysEvaluator Kzg
  PermutationArgument GatesArgument LookupArgument Quotient Placeholder PlaceholderKzg.
From Verif.Spec Require Import GroupSpec ExprSpec PlaceholderSpec CircuitSpec.
From Verif.Proofs Require Import NatTac DomainProofs KzgProofs PermProofs PermArgProofs GatesProofs LookupProofs QuotientProofs PlaceholderState
  PlaceholderRun PlaceholderPoints PlaceholderDegrees PlaceholderHonest PlaceholderComplete PlaceholderKzgProofs.
From Verif.Props Require Import C21_CopyCycles C22_PermutationCompleteness C26_LookupCompleteness C27_LookupAgreement C28_LookupParts
  C29_GatesArgument C30_QuotientSplitting.
Set Implicit Arguments.
Unset Strict Implicit.
Unset Printing Implicit Defensive.
Import GRing.Theory.
Local Open Scope ring_scope.

(** ** Soundness of the identity *)
Section Sound.
Variables (F : fieldType) (omega : F) (rows : nat).
Hypothesis prim : rows.-primitive_root omega.

(** The equation that the verifier checks at [y] when the claimed values are those of polynomials [Fs] (the constraints) and
    [ts] (the chunks of the quotient): verifier.hpp:371-398. *)
Definition identity_at (alphas : seq F) (Fs ts : seq {poly F}) (y : F) : bool :=
  foldl (fun acc aF => acc + aF.1 * aF.2) 0 (zip alphas [seq f.[y] | f : {poly F} <- Fs]) ==
  (vanishing_polynomial F rows).[y] * recombine rows y [seq t.[y] | t : {poly F} <- ts].

(** If the identity holds at as many different points as the bound of the sizes of the constraints and of the product of
    the vanishing polynomial and the recombined quotient, the combination of the constraints vanishes on every row. *)
Theorem C33_sound (alphas : seq F) (Fs ts : seq {poly F}) (ys : seq F) (bound : nat) :
  (forall f, f \in Fs -> size f <= bound)%N -> (forall t, t \in ts -> size t <= rows)%N -> (rows * (size ts).+1 <= bound)%N ->
  uniq ys -> (bound <= size ys)%N -> all (identity_at alphas Fs ts) ys ->
  forall j, (j < rows)%N -> \sum_(aF <- zip alphas Fs) aF.1 * aF.2.[omega ^+ j] = 0.
Proof.
move=> hF ht hts hu hys /allP hid j hj.
pose lhs := \sum_(aF <- zip alphas Fs) aF.1 *: aF.2.
pose q : {poly F} := \sum_(0 <= i < size ts) nth 0 ts i * 'X^(rows * i).
have r0 : (0 < rows)%N by apply: leq_ltn_trans hj.
have el y : lhs.[y] = \sum_(aF <- zip alphas Fs) aF.1 * aF.2.[y].
  by rewrite /lhs horner_sum; apply: eq_bigr => aF _; rewrite hornerZ.
have eq y : q.[y] = recombine rows y [seq t.[y] | t : {poly F} <- ts].
  rewrite recombineE size_map /q horner_sum !big_seq; apply: eq_bigr => i; rewrite mem_index_iota => /andP[_ hi].
  by rewrite hornerM hornerXn (nth_map 0).
suff -> : \sum_(aF <- zip alphas Fs) aF.1 * aF.2.[omega ^+ j] = (vanishing_polynomial F rows * q).[omega ^+ j].
  by rewrite hornerM /vanishing_polynomial !hornerE hornerXn exprAC (prim_expr_order prim) expr1n subrr mul0r.
rewrite -el; congr (_.[_]); apply/eqP; rewrite -subr_eq0; apply/negPn/negP => h0.
have : all (root (lhs - vanishing_polynomial F rows * q)) ys.
  apply/allP => y /hid; rewrite /identity_at => /eqP; rewrite -eq => h; rewrite rootE hornerD hornerN hornerM -h subr_eq0 el.
  rewrite (foldl_zip (fun a b : F => a * b)) add0r; apply/eqP.
  by elim: (alphas) (Fs) => [|a al ih] [|f fs] //=; rewrite ?big_nil // !big_cons ih.
move=> /(max_poly_roots h0) /(_ hu); rewrite ltnNge => /negP; apply; apply: leq_trans hys.
apply: (leq_trans (size_add _ _)); rewrite geq_max; apply/andP; split.
  rewrite /lhs; apply: (leq_trans (size_sum _ _ _)); apply/bigmax_leqP_seq => aF haF _.
  by apply: (leq_trans (size_scale_leq _ _)); apply: hF; case: (zip_mem haF).
rewrite size_opp; apply: (leq_trans (size_mul_leq _ _)).
have sq : (size q <= rows * size ts)%N.
  rewrite /q; apply: (leq_trans (size_sum _ _ _)); apply/bigmax_leqP_seq => i; rewrite mem_index_iota => /andP[_ hi] _.
  apply: (leq_trans (size_mul_leq _ _)); rewrite size_polyXn addnS /=.
  have := ht _ (mem_nth 0 hi); move: (size (nth 0 ts i)) => m hm; apply: (@leq_trans (rows + rows * i)); first by rewrite leq_add2r.
  by rewrite -mulnS leq_mul2l hi orbT.
have sZ : (size (vanishing_polynomial F rows) = rows.+1)%N by rewrite /vanishing_polynomial size_Xn_sub_1.
rewrite sZ addSn /=; apply: leq_trans hts; by rewrite mulnS leq_add2l.
Qed.

(** If the combination vanishes on a row for two choices of the challenges that differ only in position [i], the [i]-th
    constraint vanishes there. *)
Theorem C33_separate (Fs : seq {poly F}) (alphas alphas' : seq F) (i : nat) (x : F) :
  size alphas = size Fs -> size alphas' = size Fs -> (i < size Fs)%N ->
  nth 0 alphas i != nth 0 alphas' i -> (forall k, k != i -> nth 0 alphas k = nth 0 alphas' k) ->
  \sum_(aF <- zip alphas Fs) aF.1 * aF.2.[x] = 0 -> \sum_(aF <- zip alphas' Fs) aF.1 * aF.2.[x] = 0 -> (nth 0 Fs i).[x] = 0.
Proof.
move=> s1 s2 hi hne heq.
have e al : size al = size Fs -> \sum_(aF <- zip al Fs) aF.1 * aF.2.[x] = \sum_(k < size Fs) nth 0 al k * (nth 0 Fs k).[x].
  move=> hs; rewrite (big_nth (0, 0)) size_zip hs minnn big_mkord; apply: eq_bigr => k _; by rewrite nth_zip.
rewrite !e // (bigD1 (Ordinal hi)) //= => h1; rewrite (bigD1 (Ordinal hi)) //= => h2.
have h : (nth 0 alphas i - nth 0 alphas' i) * (nth 0 Fs i).[x] = 0.
  rewrite mulrBl; apply/eqP; rewrite subr_eq0; apply/eqP.
  move: h1; rewrite (eq_bigr (fun k : 'I_(size Fs) => nth 0 alphas' k * (nth 0 Fs k).[x])); last first.
    by move=> k hk; rewrite heq //; apply: contra hk => /eqP hk; apply/eqP/val_inj.
  by move=> h1'; exact: (addIr _ (etrans h1' (esym h2))).
by move/eqP: h; rewrite mulf_eq0 subr_eq0 (negPf hne) => /eqP.
Qed.
End Sound.

(** ** Completeness, for every commitment scheme *)
Section Complete.
Variables (F : fieldType) (omega : F).
Variables (T : Type) (tr_start : T) (challenge : T -> F * T) (C H : Type) (absorb : T -> C -> T) (absorb_hash : T -> H -> T).
Variable iteration : seq plonk_variable -> seq plonk_variable.
Variables (committable : seq {poly F} -> bool) (commit_polys : seq {poly F} -> C).
Variables (D X P : Type) (scheme_preprocess : scheme F C -> T -> D) (scheme_setup : T -> D -> X * T)
  (scheme_proof_eval : X -> scheme F C -> T -> option ((eval_storage F * P) * T))
  (scheme_verify_eval : X -> scheme F C -> eval_storage F * P -> omapT C -> T -> option (bool * T)).
Notation preprocess := (placeholder_preprocess omega tr_start absorb absorb_hash iteration committable commit_polys scheme_preprocess).
Notation commit := (placeholder_commit omega tr_start challenge absorb absorb_hash iteration committable commit_polys scheme_setup).
Notation prove := (placeholder_prove omega tr_start challenge absorb absorb_hash iteration committable commit_polys scheme_setup scheme_proof_eval).
Notation verify := (placeholder_verify omega tr_start challenge absorb absorb_hash scheme_setup scheme_verify_eval).
Variables (cs : constraint_system F) (t : plonk_table F) (d : table_description) (chunks : nat) (delta : F) (hash : H).
Notation copy := (size (cs_copy_constraints cs) != 0%N).
Notation lookup := (size (cs_lookup_gates cs) != 0%N).
Notation rows := (td_rows d).
Notation usable := (td_usable_rows d).
(** the set of permuted columns is iterated in some order; a batch of polynomials of fewer coefficients than rows can be
    committed to *)
Hypotheses (iterationP : forall l, perm_eq (iteration l) l)
  (hcomm : forall ps, all (fun p : {poly F} => size p <= rows)%N ps -> committable ps).
Hypotheses (prim : rows.-primitive_root omega) (hshape : table_shape d t) (hok : circuit_ok cs d chunks).

(** The preprocessor succeeds on every well-formed circuit that has a constraint and whose constraints have degrees below
    the chunk bound. *)
Theorem C33_preprocess :
  let degree := maxn (gates_degree (cs_gates cs)) (max_lookup_gates_degree (cs_lookup_gates cs)) in
  (0 < degree)%N -> (chunks = 0%N \/ (degree < chunks)%N) ->
  exists pp s, preprocess cs (pt_public t) d (fresh F C) chunks delta hash = Some (pp, s).
Proof. by move=> degree; exact: preprocess_ok. Qed.

Variables (pp : preprocessed_data F C H D) (s : scheme F C) (witnesses : seq {poly F}).
Hypotheses (hw : omapM (column_polynomial_dfs omega rows) (pr_witnesses (pt_private t)) = Some witnesses)
  (hpre : preprocess cs (pt_public t) d (fresh F C) chunks delta hash = Some (pp, s)).
Notation cd := (pp_common pp).
(** The transcript after the commitment to the witness and the public input, and after the permutation argument. *)
Let tr0 := absorb (scheme_setup (absorb (absorb_hash tr_start (cd_vk_hash cd)) (cd_fixed_values cd)) (cd_scheme_data cd)).2
  (commit_polys (witnesses ++ pp_public_inputs pp)).
Let tr1 := if copy then (draw challenge (cd_permutation_parts cd - 1) (challenge (challenge tr0).2).2).2 else tr0.

(** The table satisfies the gates, the copy constraints and the lookups. Then, unless one of the challenges makes a
    denominator of a grand product vanish or two different rows of the lookup tables collide, the prover commits to all
    its polynomials; and if the commitment scheme opens the state reached (proves all values and accepts this proof), the
    prover returns a proof and the verifier accepts it: whatever the challenge [y] and the other challenges are. *)
Theorem C33_complete : satisfies cs d t -> lookup_columns_ok cs d t ->
  (copy -> copy_challenges_ok omega cs d t (cd_permuted_columns cd) delta (challenge tr0).1 (challenge (challenge tr0).2).1) ->
  (lookup -> separates (cs_lookup_tables cs) t usable (challenge tr1).1) ->
  exists sorted, let tr2 := absorb (challenge tr1).2 (commit_polys sorted) in
    (lookup -> nondegenerate (cs_lookup_tables cs) t usable (challenge tr1).1 (challenge tr2).1 (challenge (challenge tr2).2).1) ->
    exists2 st, commit pp witnesses d cs s = Some st &
      (forall sp, prover_evaluation_points omega pp cs d (ps_challenge st) (ps_scheme st) = Some sp ->
         opens commit_polys scheme_proof_eval scheme_verify_eval (ps_data st) sp (ps_transcript st)) ->
      exists2 pf, prove pp witnesses d cs s = Some pf & verify cd pf d cs s = Some true.
Proof. exact: (proof_complete scheme_proof_eval scheme_verify_eval iterationP prim hshape hok hw hpre hcomm). Qed.

(** A prover that follows the protocol on any table, satisfying or not. [r] lists the polynomials of its run, [Fs] are the
    eight constraint polynomials it computed. The verifier accepts its proof exactly if the remainder of their combination
    modulo the vanishing polynomial of the rows is zero at the challenge [y] drawn last; so at fewer challenges than there
    are rows, unless the combination vanishes on every row. *)
Theorem C33_any_table r st : prover_run omega tr_start challenge absorb absorb_hash iteration committable commit_polys scheme_setup pp witnesses d cs = Some r ->
  commit pp witnesses d cs s = Some st ->
  (forall sp, prover_evaluation_points omega pp cs d (ps_challenge st) (ps_scheme st) = Some sp ->
     opens commit_polys scheme_proof_eval scheme_verify_eval (ps_data st) sp (ps_transcript st)) ->
  let Fs := r_F_perm r ++ r_F_lookup r ++ [:: r_F_gates r] in
  exists alphas pf, let remainder := (\sum_(aF <- zip alphas Fs) aF.1 *: aF.2) %% vanishing_polynomial F rows in
    [/\ size alphas = 8%N /\ size Fs = 8%N, prove pp witnesses d cs s = Some pf,
        verify cd pf d cs s = Some (remainder.[pf_challenge pf] == 0),
        (size remainder <= rows)%N &
        remainder = 0 <-> forall j, (j < rows)%N -> \sum_(aF <- zip alphas Fs) aF.1 * aF.2.[omega ^+ j] = 0].
Proof.
move=> er hst hop Fs.
have [perm [_ _ [[_ _ _ edeg _] _] _ hsc]] := preprocessP hpre.
case: (hok) => hwithin /andP[/andP[_ ur] _] [_ [_ h31]] _ hopt.
have r0 : (0 < rows)%N by apply: leq_ltn_trans ur.
have h31' : N.lt (N.of_nat (cd_max_gates_degree cd)) (N.pow 2 31) by rewrite edeg.
have [alphas [pf [h0 h1 h2 h3]]] := honest_accept iterationP (table_fits hshape hw) hpre r0 hwithin (fun hl => proj1 (hopt hl)) h31' er hst hop.
have sZ : size (vanishing_polynomial F rows) = rows.+1 by rewrite /vanishing_polynomial size_Xn_sub_1.
exists alphas, pf; split=> //; last 2 first.
- by rewrite -ltnS -sZ ltn_modp -size_poly_gt0 sZ.
- split=> [/modp_eq0P hd j hj|h].
    have -> : \sum_(aF <- zip alphas Fs) aF.1 * aF.2.[omega ^+ j] = (\sum_(aF <- zip alphas Fs) aF.1 *: aF.2).[omega ^+ j].
      by rewrite horner_sum; apply: eq_bigr => aF _; rewrite hornerZ.
    by rewrite -(divpK hd) hornerM /vanishing_polynomial !hornerE hornerXn exprAC (prim_expr_order prim) expr1n subrr mulr0.
  apply: modp_eq0; apply: (vanishing_dvd prim) => j hj; rewrite horner_sum -[RHS](h j hj); apply: eq_bigr => aF _; by rewrite hornerZ.
- split=> //; rewrite {}/Fs.
  move: er; case/ogP=> _ /olP[[[Fp bp] t2] hp] /olP[[[[Fl so] bl] t3] hl] /ogP[_] /olP[[Fg t4] hg] /olP[[ch t5] hq] /ogP[_] [<-] /=.
  have hp3 : size Fp = 3%N.
    by move: hp; rewrite /run_permutation; case: ifP => [_|_ [<-]] //; case/olP=> gi _ /olP[cols _] /perm_prove_sizes[].
  have hl4 : size Fl = 4%N.
    move: hl; rewrite /run_lookup; case: ifP => [_|_ [<-]] //; case/olP=> -[res t6] hres /ogP[_] [<- _ _ _].
    move: hres; rewrite /lookup_prove_eval /=; case: (challenge t2) => th t7; cbv zeta => /olP[lv _] /olP[li _] /olP[sv _].
    case: (challenge (absorb _ _)) => be1 t8; case: (challenge t8) => ga t9; case: (draw challenge _ t9) => al t10.
    by case/olP=> vl _ /ogP[_] /olP[gs _] /olP[hs _] /olP[fp _] /ogP[_]; case: (draw challenge _ t10) => a3 t11 [<- _].
  by rewrite !size_cat hp3 hl4.
by rewrite h3 h2.
Qed.
End Complete.

(** ** Completeness with KZG
    [e] is a bilinear pairing of the groups with generators [g1], [g2]; the keys are those of the setup with the secret [alpha],
    for polynomials of fewer than [kd] coefficients and [kt] powers in the second group; commitments are absorbed by their
    encodings of constant length. *)
Section Kzg.
Variables (F : fieldType) (G1 G2 GT : lmodType F) (e : G1 -> G2 -> GT) (g1 : G1) (g2 : G2) (kd kt : nat) (alpha : F).
Hypothesis be : bilinear e.
Variables (B : Type) (hash : seq B -> seq B) (digest_to_field : seq B -> F).
Variables (enc_g1 : G1 -> seq B) (dec_g1 : seq B -> option G1) (enc_f : F -> seq B) (len : nat).
Hypotheses (dec_enc : forall x, dec_g1 (enc_g1 x) = Some x) (enc_size : forall x, size (enc_g1 x) = len).
Notation params := (bkzg_setup g1 g2 kd kt alpha).
Notation commit_polys := (kzg_commit_polys params enc_g1).
Notation challenge := (tr_challenge hash digest_to_field).
Notation absorb := (tr_absorb hash).
Variables (omega : F) (tr_start : transcript B) (H : Type) (absorb_hash : transcript B -> H -> transcript B).
Variable iteration : seq plonk_variable -> seq plonk_variable.
Hypothesis iterationP : forall l, perm_eq (iteration l) l.
Notation preprocess := (placeholder_preprocess omega tr_start absorb absorb_hash iteration (kzg_committable params) commit_polys (@kzg_preprocess F B)).
Notation commit := (placeholder_commit omega tr_start challenge absorb absorb_hash iteration (kzg_committable params) commit_polys (@kzg_setup_transcript B)).
Notation prove open := (placeholder_prove omega tr_start challenge absorb absorb_hash iteration (kzg_committable params) commit_polys (@kzg_setup_transcript B) open).
Notation verify check := (placeholder_verify omega tr_start challenge absorb absorb_hash (@kzg_setup_transcript B) check).
Variables (cs : constraint_system F) (t : plonk_table F) (d : table_description) (chunks : nat) (delta : F) (vk : H)
  (pp : preprocessed_data F (seq B) H unit) (s : scheme F (seq B)) (witnesses : seq {poly F}).
Notation cd := (pp_common pp).
Notation copy := (size (cs_copy_constraints cs) != 0%N).
Notation lookup := (size (cs_lookup_gates cs) != 0%N).
Notation rows := (td_rows d).
Notation usable := (td_usable_rows d).
Hypotheses (prim : rows.-primitive_root omega) (hshape : table_shape d t) (hok : circuit_ok cs d chunks)
  (hw : omapM (column_polynomial_dfs omega rows) (pr_witnesses (pt_private t)) = Some witnesses)
  (hpre : preprocess cs (pt_public t) d (fresh F (seq B)) chunks delta vk = Some (pp, s)).
Let tr0 := absorb (absorb (absorb_hash tr_start (cd_vk_hash cd)) (cd_fixed_values cd)) (commit_polys (witnesses ++ pp_public_inputs pp)).
Let tr1 := if copy then (draw challenge (cd_permutation_parts cd - 1) (challenge (challenge tr0).2).2).2 else tr0.
(** The table satisfies the circuit, and the challenges of the two grand products are good. *)
Hypotheses (hsat : satisfies cs d t) (hlc : lookup_columns_ok cs d t)
  (hch : copy -> copy_challenges_ok omega cs d t (cd_permuted_columns cd) delta (challenge tr0).1 (challenge (challenge tr0).2).1)
  (hsep : lookup -> separates (cs_lookup_tables cs) t usable (challenge tr1).1).
(** The keys are large enough for the polynomials of the table; with lookups, there are two usable rows; the rotations of a
    column lead to different points. *)
Hypotheses (hkd : (rows <= kd)%N) (hu : lookup -> (1 < usable)%N)
  (hrots : forall i, uniq [seq omega ^ r | r <- nth [::] (cd_columns_rotations cd) i]).

Theorem C33_kzg : (size (undup [seq (omega ^ r)%R | r <- [:: Posz 0; Posz 1] ++ (if lookup then [:: Posz usable] else [::]) ++ flatten (cd_columns_rotations cd)]) <= kt)%N ->
  exists sorted, let tr2 := absorb (challenge tr1).2 (commit_polys sorted) in
    (lookup -> nondegenerate (cs_lookup_tables cs) t usable (challenge tr1).1 (challenge tr2).1 (challenge (challenge tr2).2).1) ->
    exists2 st, commit pp witnesses d cs s = Some st & ps_challenge st != 0 ->
      exists2 pf, prove (kzg_v1_open params hash digest_to_field enc_f) pp witnesses d cs s = Some pf &
        verify (kzg_v1_check e params hash digest_to_field dec_g1 enc_f) cd pf d cs s = Some true.
Proof. exact: (kzg_v1_complete be enc_f dec_enc enc_size iterationP prim hshape hok hw hpre hkd hu hrots hsat hlc hch hsep). Qed.

Theorem C33_kzg_v2 : kt = 1%N -> (0 < td_witness d + td_public_input d)%N ->
  exists sorted, let tr2 := absorb (challenge tr1).2 (commit_polys sorted) in
    (lookup -> nondegenerate (cs_lookup_tables cs) t usable (challenge tr1).1 (challenge tr2).1 (challenge (challenge tr2).2).1) ->
    exists2 st, commit pp witnesses d cs s = Some st & ps_challenge st != 0 ->
      exists2 pf, prove (kzg_v2_open params hash digest_to_field enc_g1 enc_f) pp witnesses d cs s = Some pf &
        verify (kzg_v2_check e g1 g2 params hash digest_to_field enc_g1 dec_g1 enc_f) cd pf d cs s = Some true.
Proof. exact: (kzg_v2_complete be enc_f dec_enc enc_size iterationP prim hshape hok hw hpre hkd hu hrots hsat hlc hch hsep). Qed.
End Kzg.

(** ** A circuit with a gate, copy constraints and a lookup
    The table of C26 (four rows over F_17, three of them usable). The gate of selector 0: the constant of the next row is the
    witness. Copy constraints: the witness on rows 0 and 1 is the constant on rows 1 and 2. The transcript is a counter. *)
Section Witness.
Local Arguments rotated_row : simpl never.
Local Arguments rows_amount : simpl never.
Notation F := [fieldType of 'F_17].
Let omega : F := 4%:R.
Let delta : F := 3%:R.
Definition example_gate : plonk_gate F :=
  PlonkGate [:: Bin SUB (expr_var _ (PlonkVariable 0 1 true CConstant)) (expr_var _ (PlonkVariable 0 0 true CWitness))] 0.
Definition example_copies : seq copy_constraint :=
  [:: CopyConstraint (PlonkVariable 0 0 false CWitness) (PlonkVariable 0 1 false CConstant);
      CopyConstraint (PlonkVariable 0 1 false CWitness) (PlonkVariable 0 2 false CConstant)].
Definition example_cs : constraint_system F := ConstraintSystem [:: example_gate] example_copies witness_gates witness_tables [::].
Definition example_d := TableDescription 1 0 1 2 3 4.
Notation d := example_d.
Notation cs := example_cs.
Notation t := witness_table.
Lemma example_shape : table_shape d t.
Proof. by vm_decide. Qed.
Lemma example_ok : circuit_ok cs d 4.
Proof.
split.
- split; first by move=> g v [<-|//]; rewrite !inE => /or3P[] /eqP->.
  move=> _; split; first by move=> g v [<-|//]; rewrite !inE => /orP[] /eqP->.
  move=> tb v [<-|//]; have h : all (PlaceholderSpec.in_table d) (lookup_table_variables (LookupTable 1 1 [:: [:: PlonkVariable 0 0 true CConstant]])) by vm_compute.
  exact: (allP h).
- by rewrite /=; exact: dvd_64.
- split; first by move=> g c [<-|//] [<-|//].
  by split; first by move=> g c e [<-|//] [<-|//] [<-|//].
- by move=> cc [<-|[<-|//]].
move=> _; split; first by move=> tb o [<-|//]; rewrite inE => /eqP->.
by right; move=> c; apply/allP: c; vm_compute.
Qed.
Lemma example_satisfies : satisfies cs d t.
Proof.
split.
- move=> g c j [<-|//] [<-|//] hj; have {}hj : (j < 3)%N := hj.
  have hr r : (r <= 1)%N -> rotated_row 4 j r%:Z = ((4 + j + r) %% 4)%N.
    move=> hr; apply: rotated_row_pos => //; apply: (@leq_trans (2 ^ 4)%N); last by rewrite leq_exp2l.
    by move: hj hr; move: (2 ^ 4)%N (erefl : 16%N = 2 ^ 4)%N => ? <-; slia.
  have e4 : rows_amount t = 4%N by [].
  rewrite /row_evaluate e4; move: (hr 1%N isT) (hr 0%N isT) => {hr}; move: (rotated_row 4 j) => f h1 h0.
  rewrite /evaluate_opt /= /eval_term /= !h1 !h0 {f h1 h0}.
  case: j hj => [|[|[|j]]] hj //; do 2 eexists; (split; [reflexivity|reflexivity|]); [right|right|left]; vm_decide.
- move=> x y [[|[|i]]] [cc] //= [<-] [] /=; rewrite /names /= => -[h1 h2] [h3 h4]; move: x y h1 h2 h3 h4 => [x1 x2] [y1 y2] /= [<-] -> [<-] ->; vm_decide.
- by move=> _; exact: witness_hold.
Qed.
Lemma example_columns : lookup_columns_ok cs d t.
Proof. by move=> _; split; [exact: witness_boolean|exact: witness_laid_out]. Qed.

(** Groups: the field itself; commitments are encoded as numbers; the transcript counts, and the field elements drawn are
    read from a list. *)
Let e : F^o -> F^o -> F^o := fun x y => x * y.
Let hash : seq nat -> seq nat := fun s => [:: (head 0%N s).+1].
Definition example_challenges : seq F := [:: 2; 2; 2; 2; 1; 1; 3; 2; 4; 5].
Let digest_to_field : seq nat -> F := fun s => nth 2 example_challenges (head 0%N s).
Let enc_g1 : F^o -> seq nat := fun x => [:: nat_of_ord (x : 'F_17)].
Let dec_g1 : seq nat -> option F^o := fun s => omap (fun n => n%:R) (ohead s).
Let enc_f : F -> seq nat := fun x => [:: nat_of_ord (x : 'F_17)].
Let start : transcript nat := [:: 0%N].
Let iteration : seq plonk_variable -> seq plonk_variable := id.
Lemma example_pairing : bilinear e.
Proof.
split=> [x x' y|x y y'|c x y|c x y]; rewrite /e.
- exact: mulrDl.
- exact: mulrDr.
- exact: esym (mulrA (c : F) x y).
- exact: mulrCA (x : F) c y.
Qed.
Lemma example_decode x : dec_g1 (enc_g1 x) = Some x.
Proof. by rewrite /dec_g1 /enc_g1 /= natr_Zp. Qed.
Notation params kt := (bkzg_setup (1 : F^o) (1 : F^o) 4 kt (5 : F)).
Notation preprocess kt := (placeholder_preprocess omega start (tr_absorb hash) (tr_absorb hash) iteration (kzg_committable (params kt))
  (kzg_commit_polys (params kt) enc_g1) (@kzg_preprocess F nat)).
Lemma example_preprocess kt : exists pp s, preprocess kt cs (pt_public t) d (fresh F (seq nat)) 4 delta [:: 7%N] = Some (pp, s).
Proof.
have hc : forall ps, all (fun p : {poly F} => size p <= td_rows d)%N ps -> kzg_committable (params kt) ps.
  by move=> ps; rewrite kzg_committableE.
have hi l : perm_eq (iteration l) l by exact: perm_refl.
refine (C33_preprocess omega start (tr_absorb hash) (tr_absorb hash) (kzg_commit_polys (params kt) enc_g1) (@kzg_preprocess F nat)
  delta [:: 7%N] hi hc example_shape example_ok _ _).
- by vm_compute.
by right; vm_compute.
Qed.
Lemma example_witnesses : exists ws, omapM (column_polynomial_dfs omega (td_rows d)) (pr_witnesses (pt_private t)) = Some ws.
Proof. by eexists; rewrite /=; reflexivity. Qed.
Lemma example_prim : (td_rows d).-primitive_root omega.
Proof.
apply/andP; split=> //; apply/forallP => -[i hi]; rewrite unity_rootE /=.
by do 4 (case: i hi => [|i] hi; first vm_decide).
Qed.
Lemma example_cycles cr : cycle_representation d example_copies = Some cr ->
  forall x y : cell, x.1 \in [:: 0; 1]%N -> (x.2 < 3)%N -> next cr x = Some y -> 
  1 * label omega [:: 0; 1]%N delta y + 1 + cell_value t x != 0.
Proof.
have h : all (fun x : cell => if obnd (cycle_representation d example_copies) (fun cr => next cr x) is Some y
    then 1 * label omega [:: 0; 1]%N delta y + 1 + cell_value t x != 0 else true) [seq (i, j) | i <- [:: 0; 1]%N, j <- iota 0 3] by vm_decide.
move=> hcr x y hx1 hx2 hy; have /(allP h) : x \in [seq (i, j) | i <- [:: 0; 1]%N, j <- iota 0 3].
  by apply/allpairsP; exists x; split=> //; [rewrite mem_iota|case: (x)].
by rewrite hcr /= hy.
Qed.
(** What the theorems ask of the challenges. *)
Lemma example_run kt pp s ws : preprocess kt cs (pt_public t) d (fresh F (seq nat)) 4 delta [:: 7%N] = Some (pp, s) ->
  let cd := pp_common pp in
  let tr0 := tr_absorb hash (tr_absorb hash (tr_absorb hash start (cd_vk_hash cd)) (cd_fixed_values cd))
    (kzg_commit_polys (params kt) enc_g1 (ws ++ pp_public_inputs pp)) in
  let challenge := tr_challenge hash digest_to_field in
  let tr1 := (draw challenge (cd_permutation_parts cd - 1) (challenge (challenge tr0).2).2).2 in
  [/\ copy_challenges_ok omega cs d t (cd_permuted_columns cd) delta (challenge tr0).1 (challenge (challenge tr0).2).1,
      separates (cs_lookup_tables cs) t 3 (challenge tr1).1,
      forall c, let tr2 := tr_absorb hash (challenge tr1).2 c in
        nondegenerate (cs_lookup_tables cs) t 3 (challenge tr1).1 (challenge tr2).1 (challenge (challenge tr2).2).1,
      cd_columns_rotations cd = [:: [:: 0]; [:: 0; 1]; [:: 0]; [:: 0; 1]] &
      forall i, uniq [seq omega ^ r | r <- nth [::] (cd_columns_rotations cd) i]].
Proof.
move=> hpre cd tr0 challenge tr1; have [perm [[[_ hcols] _] _ [_ [hparts _ hrots _]] _ _]] := preprocessP hpre.
have e0 : tr0 = [:: 3%N] by [].
have ecols : cd_permuted_columns cd = [:: 0; 1]%N by move: hcols; rewrite /permuted_global_indices /iteration => -[<-].
have eparts : cd_permutation_parts cd = 1%N by move: hparts; rewrite -/cd ecols => -[<-].
have e1 : tr1 = [:: 5%N] by rewrite /tr1 e0 eparts.
have erots : cd_columns_rotations cd = [:: [:: 0]; [:: 0; 1]; [:: 0]; [:: 0; 1]] by move: hrots => -[<-].
split; last 2 first.
- exact: erots.
- by move=> i; rewrite erots; case: i => [|[|[|[|[|i]]]]]; vm_decide.
- by move=> cr x y hcr; rewrite ecols e0 /=; exact: (example_cycles hcr).
- by rewrite e1; exact: witness_separates.
by move=> c; rewrite /= e1; exact: witness_nondegenerate.
Qed.

Notation challenge := (tr_challenge hash digest_to_field).
Notation commit kt := (placeholder_commit omega start challenge (tr_absorb hash) (tr_absorb hash) iteration (kzg_committable (params kt))
  (kzg_commit_polys (params kt) enc_g1) (@kzg_setup_transcript nat)).
Notation prove kt open := (placeholder_prove omega start challenge (tr_absorb hash) (tr_absorb hash) iteration (kzg_committable (params kt))
  (kzg_commit_polys (params kt) enc_g1) (@kzg_setup_transcript nat) open).
Notation verify check := (placeholder_verify omega start challenge (tr_absorb hash) (tr_absorb hash) (@kzg_setup_transcript nat) check).
Lemma example_nonzero tr : (challenge tr).1 != 0.
Proof.
rewrite /tr_challenge /= /digest_to_field; move: (head _ _) => i.
have h : all (fun x : F => x != 0) (2 :: example_challenges) by vm_decide.
case: (ltnP i (size example_challenges)) => hi; last by rewrite nth_default //; vm_decide.
by apply: (allP h); rewrite inE mem_nth ?orbT.
Qed.
Lemma example_state kt pp s ws st : preprocess kt cs (pt_public t) d (fresh F (seq nat)) 4 delta [:: 7%N] = Some (pp, s) ->
  commit kt pp ws d cs s = Some st -> ps_challenge st != 0.
Proof.
move=> hpre hst; have [perm [_ _ _ _ hs]] := preprocessP hpre.
have := commitP omega start challenge (tr_absorb hash) (tr_absorb hash) iteration (kzg_committable (params kt)) (@kzg_setup_transcript nat) ws d cs hs.
case er : prover_run => [r|]; last by rewrite hst.
case=> st' hst' [_ ey _ _ _]; have est : st = st' by move: hst; rewrite hst' => -[->].
rewrite est ey; move: er; rewrite /prover_run; case/ogP=> _ /olP[[[Fp bp] t2] hp] /olP[[[[Fl so] bl] t3] hl] /ogP[_] /olP[[Fg t4] hg] /olP[[ch t5] hq] /ogP[_] [<-] /=.
exact: example_nonzero.
Qed.
(** The proofs of this circuit with this table are accepted. *)
Example C33_kzg_witness : exists pp s ws pf,
  prove 3 (kzg_v1_open (params 3) hash digest_to_field enc_f) pp ws d cs s = Some pf /\
  verify (kzg_v1_check e (params 3) hash digest_to_field dec_g1 enc_f) (pp_common pp) pf d cs s = Some true.
Proof.
have [pp [s hpre]] := example_preprocess 3; have [ws hw] := example_witnesses.
have [h1 h2 h3 h4 h5] := example_run ws hpre.
have hi l : perm_eq (iteration l) l by exact: perm_refl.
have hk : (size (undup [seq (omega ^ r)%R | r <- [:: Posz 0; Posz 1] ++ [:: Posz 3] ++ flatten (cd_columns_rotations (pp_common pp))]) <= 3)%N.
  by rewrite h4; vm_decide.
have [sorted h] := C33_kzg example_pairing enc_f example_decode (fun _ => erefl 1%N) hi example_prim example_shape example_ok hw hpre example_satisfies
  example_columns (fun _ => h1) (fun _ => h2) isT (fun _ => isT) h5 hk.
have [st hst h'] := h (fun _ => h3 _).
have [pf hp hv] := h' (example_state hpre hst).
exists pp, s, ws, pf; split; [exact: hp|exact: hv].
Qed.
Example C33_kzg_v2_witness : exists pp s ws pf,
  prove 1 (kzg_v2_open (params 1) hash digest_to_field enc_g1 enc_f) pp ws d cs s = Some pf /\
  verify (kzg_v2_check e (1 : F^o) (1 : F^o) (params 1) hash digest_to_field enc_g1 dec_g1 enc_f) (pp_common pp) pf d cs s = Some true.
Proof.
have [pp [s hpre]] := example_preprocess 1; have [ws hw] := example_witnesses.
have [h1 h2 h3 h4 h5] := example_run ws hpre.
have hi l : perm_eq (iteration l) l by exact: perm_refl.
have [sorted h] := C33_kzg_v2 example_pairing enc_f example_decode (fun _ => erefl 1%N) hi example_prim example_shape example_ok hw hpre example_satisfies
  example_columns (fun _ => h1) (fun _ => h2) isT (fun _ => isT) h5 erefl isT.
have [st hst h'] := h (fun _ => h3 _).
have [pf hp hv] := h' (example_state hpre hst).
exists pp, s, ws, pf; split; [exact: hp|exact: hv].
Qed.
End Witness.

Print Assumptions C33_sound.
Print Assumptions C33_separate.
Print Assumptions C33_preprocess.
Print Assumptions C33_complete.
Print Assumptions C33_any_table.
Print Assumptions C33_kzg.
Print Assumptions C33_kzg_v2.
