(** The Placeholder preprocessor and prover without the state of the commitment scheme. *)
From Coq Require Import NArith.
From mathcomp Require Import all_ssreflect all_algebra.
From Verif.Model Require Import Base OrderedMap HashMap Domain Expression PlonkVariable PlonkTable CycleRepresentation PolysEvaluator
  PermutationArgument GatesArgument LookupArgument Quotient Placeholder.
From Verif.Proofs Require Import NatTac DomainProofs PermProofs TableProofs KzgProofs EvaluatorProofs MapProofs PlaceholderProofs PlaceholderState.
Set Implicit Arguments.
Unset Strict Implicit.
Unset Printing Implicit Defensive.
Import GRing.Theory.
Local Open Scope ring_scope.

(** Inversion of the option monad *)
Lemma olP (A B : Type) (f : A -> option B) (o : option A) r : obnd o f = Some r -> exists2 x, o = Some x & f x = Some r.
Proof. by case: o => //= x; exists x. Qed.
Lemma ogP (B : Type) (b : bool) (e : option B) r : (if b then e else None) = Some r -> b /\ e = Some r.
Proof. by case: b. Qed.
Arguments olP {A B f o r} _.
Arguments ogP {B b e r} _.

Section Run.
Variables (F : fieldType) (omega : F).
Variables (T : Type) (tr_start : T) (challenge : T -> F * T) (C H : Type) (absorb : T -> C -> T) (absorb_hash : T -> H -> T).
Variable iteration : seq plonk_variable -> seq plonk_variable.
Variables (committable : seq {poly F} -> bool) (commit_polys : seq {poly F} -> C).
Variables (D X : Type) (scheme_preprocess : scheme F C -> T -> D) (scheme_setup : T -> D -> X * T).
Notation preprocess := (placeholder_preprocess omega tr_start absorb absorb_hash iteration committable commit_polys scheme_preprocess).
Notation commit := (placeholder_commit omega tr_start challenge absorb absorb_hash iteration committable commit_polys scheme_setup).
Notation holds := (holds commit_polys).
Implicit Types (pp : preprocessed_data F C H D) (cs : constraint_system F) (d : table_description).

(** The scheme after preprocessing holds one batch, committed. *)
Definition fixed_batch pp : seq {poly F} :=
  pp_identity_polynomials pp ++ pp_permutation_polynomials pp ++ [:: pp_q_last pp; pp_q_blind pp] ++ pp_constants pp ++ pp_selectors pp.
Definition only (ps : seq {poly F}) (k : nat) : option (seq {poly F}) := if k == FIXED_VALUES_BATCH then Some ps else None.

Lemma preprocessP cs public d chunks delta hash pp s : preprocess cs public d (fresh F C) chunks delta hash = Some (pp, s) ->
  exists perm, let n := size (cd_permuted_columns (pp_common pp)) in let rows := td_rows d in
  [/\ (cycle_representation d (cs_copy_constraints cs) = Some perm /\
       permuted_global_indices iteration cs d = Some (cd_permuted_columns (pp_common pp))) /\
      (pp_identity_polynomials pp = identity_polynomials omega rows n delta /\
       permutation_polynomials omega rows (cd_permuted_columns (pp_common pp)) delta perm = Some (pp_permutation_polynomials pp)),
      (pp_q_last pp = lagrange_polynomial omega rows (td_usable_rows d) /\ pp_q_blind pp = selector_blind omega rows (td_usable_rows d)) /\
      [/\ omapM (column_polynomial_dfs omega rows) (pu_public_inputs public) = Some (pp_public_inputs pp),
          omapM (column_polynomial_dfs omega rows) (pu_constants public) = Some (pp_constants pp) &
          omapM (column_polynomial_dfs omega rows) (pu_selectors public) = Some (pp_selectors pp)],
      [/\ cd_desc (pp_common pp) = d, cd_max_quotient_chunks (pp_common pp) = chunks, cd_vk_hash (pp_common pp) = hash,
          cd_max_gates_degree (pp_common pp) = maxn (gates_degree (cs_gates cs)) (max_lookup_gates_degree (cs_lookup_gates cs)) &
          (0 < cd_max_gates_degree (pp_common pp))%N /\ (chunks == 0%N) || (cd_max_gates_degree (pp_common pp) < chunks)%N] /\
      [/\ permutation_partitions_num n chunks = Some (cd_permutation_parts (pp_common pp)),
          cd_lookup_parts (pp_common pp) = size (lookup_parts (cs_lookup_gates cs) (cs_lookup_tables cs) chunks),
          columns_rotations cs d = Some (cd_columns_rotations (pp_common pp)) &
          cd_fixed_values (pp_common pp) = commit_polys (fixed_batch pp)],
      committable (fixed_batch pp) &
      holds s (only (fixed_batch pp)) (fun k => k == FIXED_VALUES_BATCH)].
Proof.
rewrite /placeholder_preprocess; cbv zeta; move=> /ogP[hpos] /olP[perm hcr] /olP[gi hgi] /olP[sigma hs] /olP[pub hp] /olP[con hc] /olP[sel hl] /ogP[hch] /olP[parts hpp].
have f0 := holds_fresh commit_polys; set id := identity_polynomials _ _ _ _; set ql := lagrange_polynomial _ _ _; set qb := selector_blind _ _ _.
have [s1 -> h1] := holds_append (k := FIXED_VALUES_BATCH) id f0 isT; rewrite /=.
have [s2 -> h2] := holds_append (k := FIXED_VALUES_BATCH) sigma h1 isT; rewrite /=.
have [s3 -> h3] := holds_append (k := FIXED_VALUES_BATCH) [:: ql] h2 isT; rewrite /=.
have [s4 -> h4] := holds_append (k := FIXED_VALUES_BATCH) [:: qb] h3 isT; rewrite /=.
have [s5 -> h5] := holds_append (k := FIXED_VALUES_BATCH) con h4 isT; rewrite /=.
have [s6 -> h6] := holds_append (k := FIXED_VALUES_BATCH) sel h5 isT; rewrite /=.
case=> /olP[[c s7] hco]; have [hok hcE h7] := holds_commit_inv (k := FIXED_VALUES_BATCH) h6 isT hco.
case/olP=> rs hr [<- <-]; exists perm => /=.
have e : odflt [::] (upd (upd (upd (upd (upd (upd (fun=> None) FIXED_VALUES_BATCH (Some id)) FIXED_VALUES_BATCH (Some (id ++ sigma)))
    FIXED_VALUES_BATCH (Some ((id ++ sigma) ++ [:: ql]))) FIXED_VALUES_BATCH (Some (((id ++ sigma) ++ [:: ql]) ++ [:: qb])))
    FIXED_VALUES_BATCH (Some ((((id ++ sigma) ++ [:: ql]) ++ [:: qb]) ++ con))) FIXED_VALUES_BATCH
    (Some (((((id ++ sigma) ++ [:: ql]) ++ [:: qb]) ++ con) ++ sel)) FIXED_VALUES_BATCH) = id ++ sigma ++ [:: ql; qb] ++ con ++ sel.
  by rewrite /= -!catA.
move: hok hcE h7; rewrite /= -!catA /= => hok hcE h7; split=> //.
apply: holds_ext h7 _ _ => k; rewrite /upd /only eq_sym //.
  by rewrite (eq_sym k); case: eqP.
by case: eqP.
Qed.

(** ** The prover up to the challenge *)
(** What the prover computes: the constraint polynomials, the batches and the transcript. *)
Record run := Run { r_data : X; r_F_perm : seq {poly F}; r_perm_batch : seq {poly F}; r_F_lookup : seq {poly F};
  r_sorted : seq {poly F}; r_lookup_batch : seq {poly F}; r_F_gates : {poly F}; r_chunks : seq {poly F}; r_y : F; r_transcript : T }.
Section One.
Variables (pp : preprocessed_data F C H D) (witnesses : seq {poly F}) (d : table_description) (cs : constraint_system F).
Notation cd := (pp_common pp).
Notation pt := (prover_table pp witnesses).
Notation copy := (size (cs_copy_constraints cs) != 0%N).
Notation lookup := (size (cs_lookup_gates cs) != 0%N).
Definition variable_batch := witnesses ++ pp_public_inputs pp.
Definition setup_transcript := scheme_setup (initial_transcript tr_start absorb absorb_hash cd) (cd_scheme_data cd).
Definition variable_transcript := absorb setup_transcript.2 (commit_polys variable_batch).
Definition perm_data_of := PermData (pp_identity_polynomials pp) (pp_permutation_polynomials pp) (pp_q_last pp) (pp_q_blind pp)
  (lagrange_polynomial omega (td_rows (cd_desc cd)) 0) (cd_max_quotient_chunks cd) (cd_permutation_parts cd) (td_usable_rows (cd_desc cd)).
Definition lookup_data_of := LookupData (cs_lookup_gates cs) (cs_lookup_tables cs) (pp_q_last pp) (pp_q_blind pp)
  (lagrange_polynomial omega (td_rows (cd_desc cd)) 0) (cd_max_quotient_chunks cd) (td_usable_rows (cd_desc cd)).
Definition run_permutation (tr : T) : option (seq {poly F} * seq {poly F} * T) :=
  if copy then
    olet global_indices <- permuted_global_indices iteration cs d;
    olet cols <- omapM (vget (table_columns pt)) global_indices;
    perm_prove_eval omega (td_rows (cd_desc cd)) challenge perm_data_of cols tr
  else Some ([:: 0; 0; 0], [::], tr).
Definition run_lookup (tr : T) : option (seq {poly F} * seq {poly F} * seq {poly F} * T) :=
  if lookup then
    olet r <- lookup_prove_eval omega (td_rows (cd_desc cd)) challenge absorb commit_polys lookup_data_of pt tr;
    oguard committable (lr_sorted r.1);
    Some (lr_F r.1, lr_sorted r.1, lr_V_L r.1 :: lr_parts r.1, r.2)
  else Some ([:: 0; 0; 0; 0], [::], [::], tr).
Definition prover_run : option run :=
  oguard committable variable_batch;
  olet p <- run_permutation variable_transcript;
  olet l <- run_lookup p.2;
  let batch := p.1.2 ++ l.1.2 in
  oguard (copy || lookup) ==> committable batch;
  let tr := if copy || lookup then absorb l.2 (commit_polys batch) else l.2 in
  olet g <- gates_prove_eval omega challenge (cs_gates cs) pt (N.of_nat (cd_max_gates_degree cd)) (1 - pp_q_last pp - pp_q_blind pp) tr;
  olet q <- prover_quotient challenge pp cs d (p.1.1 ++ l.1.1.1 ++ [:: g.1]) g.2;
  oguard committable q.1;
  let y := challenge (absorb q.2 (commit_polys q.1)) in
  Some (Run setup_transcript.1 p.1.1 p.1.2 l.1.1.1 l.1.1.2 l.1.2 g.1 q.1 y.1 y.2).

(** The batches that the scheme holds then. *)
Definition run_batches (r : run) (k : nat) : option (seq {poly F}) :=
  if k == FIXED_VALUES_BATCH then Some (fixed_batch pp) else
  if k == VARIABLE_VALUES_BATCH then Some variable_batch else
  if k == PERMUTATION_BATCH then if copy || lookup then Some (r_perm_batch r ++ r_lookup_batch r) else None else
  if k == QUOTIENT_BATCH then Some (r_chunks r) else
  if k == LOOKUP_BATCH then if lookup then Some (r_sorted r) else None else None.

Lemma permutation_stage s P L tr : holds s P L -> ~~ L PERMUTATION_BATCH -> P PERMUTATION_BATCH = None ->
  match run_permutation tr with
  | None => prover_permutation omega challenge iteration pp pt cs d s tr = None
  | Some r => exists2 s', prover_permutation omega challenge iteration pp pt cs d s tr = Some (r.1.1, s', r.2) &
      holds s' (if copy then upd P PERMUTATION_BATCH (Some r.1.2) else P) L
  end.
Proof.
move=> h hl hp; rewrite /run_permutation /prover_permutation -/perm_data_of; case: ifP => _; last by exists s.
case: permuted_global_indices => //= gi; case: (omapM _ _) => //= cols; case: (perm_prove_eval _ _ _ _ _) => //= -[[Fs b] tr'] /=.
by have [s' -> h'] := holds_append b h hl; rewrite /=; exists s' => //; move: h'; rewrite hp.
Qed.
Lemma lookup_stage s P L c tr : holds s P L -> ~~ L PERMUTATION_BATCH -> ~~ L LOOKUP_BATCH -> P LOOKUP_BATCH = None ->
  match run_lookup tr with
  | None => prover_lookup omega challenge absorb committable commit_polys pp pt cs s c tr = None
  | Some r => exists2 s', prover_lookup omega challenge absorb committable commit_polys pp pt cs s c tr =
        Some (r.1.1.1, s', if lookup then om_set c LOOKUP_BATCH (commit_polys r.1.1.2) else c, r.2) &
      holds s' (if lookup then upd (upd P LOOKUP_BATCH (Some r.1.1.2)) PERMUTATION_BATCH (Some (odflt [::] (P PERMUTATION_BATCH) ++ r.1.2)) else P)
        (if lookup then upd L LOOKUP_BATCH true else L)
  end.
Proof.
move=> h hl hl' hp; rewrite /run_lookup /prover_lookup -/lookup_data_of; case: ifP => _; last by exists s.
case: (lookup_prove_eval _ _ _ _ _ _ _ _) => //= -[res tr'] /=.
have [s1 -> h1] := holds_append (lr_sorted res) h hl'; rewrite /=.
have [] := holds_commit committable h1 hl'; rewrite /= {1 2 3 4}/upd /= hp /= => e hc.
case: ifP e hc => [_ _|_ -> _] //=; case=> // s2 -> h2 /=.
have [|s3 -> h3] := holds_append (k := PERMUTATION_BATCH) (lr_V_L res :: lr_parts res) h2; first by rewrite /upd.
rewrite /=; exists s3 => //; apply: holds_ext h3 _ _ => // k; rewrite /upd.
by move: k => [|[|[|[|[|k]]]]].
Qed.
Lemma commitP s : holds s (only (fixed_batch pp)) (fun k => k == FIXED_VALUES_BATCH) ->
  match prover_run with
  | None => commit pp witnesses d cs s = None
  | Some r => exists2 st, commit pp witnesses d cs s = Some st &
      [/\ ps_data st = r_data r /\ ps_transcript st = r_transcript r, ps_challenge st = r_y r,
          sorted ltn (om_keys (ps_commitments st)),
          forall k, om_get (ps_commitments st) k = if k == FIXED_VALUES_BATCH then None else omap commit_polys (run_batches r k) &
          holds (ps_scheme st) (run_batches r) (fun k => isSome (run_batches r k))]
  end.
Proof.
move=> h0; rewrite /prover_run /placeholder_commit /= -/setup_transcript.
case es : setup_transcript => [data tr0] /=.
have [s1 -> h1] := holds_append (k := VARIABLE_VALUES_BATCH) witnesses h0 isT; rewrite /=.
have [s2 -> h2] := holds_append (k := VARIABLE_VALUES_BATCH) (pp_public_inputs pp) h1 isT; rewrite /=.
have := holds_commit committable h2 (k := VARIABLE_VALUES_BATCH) isT; rewrite /= -/variable_batch.
case: (committable variable_batch) => -[e hc]; last by rewrite e.
have [s3 {e hc}-> h3] := hc isT; rewrite /= /variable_transcript es /=; set tr1 := absorb tr0 _.
have := permutation_stage tr1 h3 isT erefl; case ep : (run_permutation tr1) => [[[Fp bp] tr2]|]; last by move=> ->.
case=> s4 -> h4 /=; set c1 := [:: _].
have := @lookup_stage _ _ _ c1 tr2 h4 isT isT; rewrite {1}(fun_if (fun f => f LOOKUP_BATCH)) /= if_same => /(_ erefl).
case el : (run_lookup tr2) => [[[[Fl so] bl] tr3]|]; last by move=> ->.
case=> s5 -> h5 /=; move: h5.
set P5 := (if lookup then _ else _); set L5 := (if lookup then _ else _) => h5.
have hP5 : odflt [::] (P5 PERMUTATION_BATCH) = bp ++ bl.
  rewrite /P5; move: ep el; rewrite /run_permutation /run_lookup.
  case: ifP => hcp; case: ifP => hlk; rewrite /upd //=.
  - by move=> _ [_ _ <- _]; rewrite cats0.
  - by case=> _ <- _.
  - by case=> _ <- _ [_ _ <- _].
have hL5 : ~~ L5 PERMUTATION_BATCH by rewrite /L5; case: ifP.
have hL5' : ~~ L5 QUOTIENT_BATCH by rewrite /L5; case: ifP.
pose b := copy || lookup; rewrite -/b.
pose P6 := if b then upd P5 PERMUTATION_BATCH (Some (bp ++ bl)) else P5.
pose L6 := if b then upd L5 PERMUTATION_BATCH true else L5.
pose c2 := if lookup then om_set c1 LOOKUP_BATCH (commit_polys so) else c1.
pose c3 := if b then om_set c2 PERMUTATION_BATCH (commit_polys (bp ++ bl)) else c2.
pose tr4 := if b then absorb tr3 (commit_polys (bp ++ bl)) else tr3.
rewrite -/c2; set stage := (if b then obnd _ _ else Some (s5, c2, tr3)).
have : if b ==> committable (bp ++ bl) then exists2 s6, stage = Some (s6, c3, tr4) & holds s6 P6 L6 else stage = None.
  rewrite /stage /c3 /tr4 /P6 /L6; case: (b) => /=; last by exists s5.
  have [] := holds_commit committable h5 hL5; rewrite hP5; case: ifP => [_ _|_ ->] //; case=> // s6 -> h6.
  by exists s6.
rewrite -/tr4; case: ifP => [_ [s6 -> h6]|_ ->] //=.
case: (gates_prove_eval _ _ _ _ _ _ _) => [[Fg tr5]|] //=.
case: (prover_quotient _ _ _ _ _ _) => [[ch tr6]|] //=.
have hL6 : ~~ L6 QUOTIENT_BATCH by rewrite /L6; case: (b).
have hP6 : P6 QUOTIENT_BATCH = None.
  by rewrite /P6 /P5; case: (b) => /=; rewrite /upd /=; case: ifP => //; case: ifP.
have [s7 -> h7] := holds_append ch h6 hL6; rewrite /=.
have [] := holds_commit committable h7 hL6; rewrite {1 2 3}/upd hP6 /=; case: ifP => [_ _|_ -> _] //=.
case=> // s8 -> h8 /=; case: (challenge _) => y tr7; eexists; first by [].
have hs2 : sorted ltn (om_keys c2) by rewrite /c2; case: ifP => // _; apply: sorted_om_set.
have hs3 : sorted ltn (om_keys c3) by rewrite /c3; case: (b) => //; apply: sorted_om_set.
split=> //=; first exact: sorted_om_set.
  move=> k; rewrite om_get_set /run_batches /= -/b /c3 /c2 /c1 /b.
  by case: (copy); case: (lookup) => /=; case: k => [|[|[|[|[|k]]]]]; rewrite ?om_get_set.
apply: holds_ext h8 _ _ => k; rewrite /run_batches /= /upd /P6 /P5 /L6 /L5 /b /upd /only /variable_batch;
by case: (copy); case: (lookup) => /=; case: k => [|[|[|[|[|k]]]]].
Qed.
End One.
End Run.
