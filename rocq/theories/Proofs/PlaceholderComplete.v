(** Completeness of the Placeholder prover and verifier. *)
From Coq Require Import NArith.
From mathcomp Require Import all_ssreflect all_algebra.
From Verif.Model Require Import Base OrderedMap HashMap Domain Expression PlonkVariable PlonkTable CycleRepresentation PolysEvaluator
  PermutationArgument GatesArgument LookupArgument Quotient Placeholder.
From Verif.Spec Require Import ExprSpec PlaceholderSpec CircuitSpec.
From Verif.Proofs Require Import NatTac DomainProofs KzgProofs PermProofs ExprProofs PermArgProofs GatesProofs LookupProofs LookupSortProofs QuotientProofs
  EvaluatorProofs PlaceholderProofs PlaceholderState PlaceholderRun PlaceholderPoints PlaceholderReads PlaceholderHonest PlaceholderDegrees.
From Verif.Props Require Import C15_CachedEvaluation C21_CopyCycles C22_PermutationCompleteness C24_PermutationAgreement C26_LookupCompleteness
  C27_LookupAgreement C28_LookupParts C29_GatesArgument C30_QuotientSplitting.
Set Implicit Arguments.
Unset Strict Implicit.
Unset Printing Implicit Defensive.
Import GRing.Theory.
Local Open Scope ring_scope.

(** ** The quotient *)
Section Quotient.
Variables (F : fieldType) (omega : F) (rows : nat).
Hypothesis prim : rows.-primitive_root omega.
Notation bounded := (bounded rows).
Notation Z := (vanishing_polynomial F rows).
Implicit Types (Fs : seq {poly F}) (alphas : seq F).
Let r0 : (0 < rows)%N. Proof. by case/andP: prim. Qed.

Lemma size_Z : size Z = rows.+1.
Proof. by rewrite /vanishing_polynomial size_Xn_sub_1. Qed.
Lemma Z_neq0 : Z != 0.
Proof. by rewrite -size_poly_eq0 size_Z. Qed.

Lemma quotientE alphas Fs : quotient_polynomial alphas Fs Z = (\sum_(aF <- zip alphas Fs) aF.1 *: aF.2) %/ Z.
Proof.
rewrite /quotient_polynomial; congr (_ %/ _).
have h acc : foldl (fun acc (aF : F * {poly F}) => acc + (if aF.2 == 0 then aF.2 else aF.1 *: aF.2)) acc (zip alphas Fs) =
  acc + \sum_(aF <- zip alphas Fs) aF.1 *: aF.2.
  elim: (zip alphas Fs) acc => [|x s ih] acc /=; first by rewrite big_nil addr0.
  rewrite ih big_cons addrA; congr (_ + _ + _).
  by case: eqP => [->|//]; rewrite scaler0.
by rewrite h add0r.
Qed.

Lemma sum_bounded k alphas Fs : all (bounded k) Fs -> bounded k (\sum_(aF <- zip alphas Fs) aF.1 *: aF.2).
Proof.
elim: Fs alphas => [|f Fs ih] [|a alphas] /=; rewrite ?big_nil ?big_cons => h; try exact: bounded_zero.
by case/andP: h => hf h; apply: boundedD; [exact: boundedZ|exact: ih].
Qed.

Lemma quotient_size k alphas Fs : all (bounded k.+1) Fs -> (size (quotient_polynomial alphas Fs Z) <= k * (rows - 1))%N.
Proof.
move=> h; rewrite quotientE size_divp ?Z_neq0 // size_Z /=.
have := sum_bounded alphas h; rewrite /C28_LookupParts.bounded mulnS mulnC -subn1.
by move: (k * _)%N (size _) r0; slia.
Qed.

Lemma vanishing_dvd (f : {poly F}) : (forall j, (j < rows)%N -> f.[omega ^+ j] = 0) -> Z %| f.
Proof.
move=> h; rewrite /vanishing_polynomial -(factor_Xn_sub_1 prim).
have -> : \prod_(0 <= i < rows) ('X - (omega ^+ i)%:P) = \prod_(x <- [seq omega ^+ i | i <- iota 0 rows]) ('X - x%:P).
  by rewrite big_map /index_iota subn0.
apply: uniq_roots_dvdp.
  by apply/allP => x /mapP[j]; rewrite mem_iota /= add0n => hj ->; apply/eqP; exact: h.
rewrite uniq_rootsE; exact: uniq_domain.
Qed.
End Quotient.

Lemma eval_divp (F : fieldType) (f Z : {poly F}) y : (f.[y] == Z.[y] * (f %/ Z).[y]) = ((f %% Z).[y] == 0).
Proof. by rewrite {1}(divp_eq f Z) hornerD hornerM mulrC -subr_eq0 addrAC subrr add0r. Qed.

Lemma vget_in (A : Type) (l : seq A) i x : vget l i = Some x -> List.In x l.
Proof. by elim: l i => [|a l ih] [|i] //= => [[->]|/ih h]; [left|right]. Qed.
Lemma in_vget (A : Type) (l : seq A) x : List.In x l -> exists i, vget l i = Some x.
Proof. by elim: l => [|a l ih] //= [->|/ih[i hi]]; [exists 0%N|exists i.+1]. Qed.
Arguments vget_in {A l i x} _.
Arguments in_vget {A l x} _.

Section Complete.
Variables (F : fieldType) (omega : F).
Variables (T : Type) (tr_start : T) (challenge : T -> F * T) (C H : Type) (absorb : T -> C -> T) (absorb_hash : T -> H -> T).
Variable iteration : seq plonk_variable -> seq plonk_variable.
Variables (committable : seq {poly F} -> bool) (commit_polys : seq {poly F} -> C).
Variables (D X P : Type) (scheme_preprocess : scheme F C -> T -> D) (scheme_setup : T -> D -> X * T)
  (scheme_proof_eval : X -> scheme F C -> T -> option ((eval_storage F * P) * T))
  (scheme_verify_eval : X -> scheme F C -> eval_storage F * P -> omapT C -> T -> option (bool * T)).
Notation preprocess := (placeholder_preprocess omega tr_start absorb absorb_hash iteration committable commit_polys scheme_preprocess).
Notation commit := (placeholder_commit omega tr_start challenge absorb absorb_hash iteration committable commit_polys scheme_setup).
Notation prove := (placeholder_prove omega tr_start challenge absorb absorb_hash iteration committable commit_polys scheme_setup scheme_proof_eval).
Notation verify := (placeholder_verify omega tr_start challenge absorb absorb_hash scheme_setup scheme_verify_eval).
Hypothesis iterationP : forall l, perm_eq (iteration l) l.

(** The commitment scheme opens the state [s]: the proof contains the values of all polynomials at all points, and every
    verifier with the same points accepts it with the commitments to the batches. *)
Definition opens (data : X) (s : scheme F C) (tr : T) : Prop := exists z pi tr1,
  [/\ scheme_proof_eval data s tr = Some ((z, pi), tr1),
      forall k, om_get z k = omap (fun ps : seq {poly F} =>
        [seq [seq (nth 0 ps i).[x] | x <- nth [::] (odflt [::] (om_get (ev_points (sc_ev s)) k)) i] | i <- iota 0 (size ps)]) (om_get (ev_polys (sc_ev s)) k) &
      forall sv cm, ev_points (sc_ev sv) = ev_points (sc_ev s) -> sorted ltn (om_keys cm) ->
        (forall k, om_get cm k = omap commit_polys (om_get (ev_polys (sc_ev s)) k)) ->
        exists tr2, scheme_verify_eval data sv (z, pi) cm tr = Some (true, tr2)].

Section Main.
Variables (cs : constraint_system F) (public : plonk_public_table F) (d : table_description) (chunks : nat) (delta : F) (hash : H)
  (pp : preprocessed_data F C H D) (s : scheme F C) (witnesses : seq {poly F}).
Hypotheses (hfit : fits_description d public witnesses) (hpre : preprocess cs public d (fresh F C) chunks delta hash = Some (pp, s)).
Notation cd := (pp_common pp).
Notation pt := (prover_table pp witnesses).
Notation copy := (size (cs_copy_constraints cs) != 0%N).
Notation lookup := (size (cs_lookup_gates cs) != 0%N).
Notation n := (size (cd_permuted_columns cd)).
Notation rows := (td_rows d).
Notation run := (prover_run omega tr_start challenge absorb absorb_hash iteration committable commit_polys scheme_setup pp witnesses d cs).
Notation batches := (run_batches pp witnesses cs).
Notation Fs r := (r_F_perm r ++ r_F_lookup r ++ [:: r_F_gates r]).
Hypotheses (r0 : (0 < rows)%N) (hwithin : within d cs) (hopt : lookup -> options_sized (cs_lookup_tables cs))
  (hdeg : N.lt (N.of_nat (cd_max_gates_degree cd)) (N.pow 2 31)).

(** The state of the scheme that the honest prover opens. *)
Notation points y := (opening_points omega y copy lookup d n (cd_permutation_parts cd) (cd_columns_rotations cd)).
Lemma honest_scheme r st sp : run = Some r -> commit pp witnesses d cs s = Some st ->
  prover_evaluation_points omega pp cs d (ps_challenge st) (ps_scheme st) = Some sp ->
  [/\ ev_z (sc_ev sp) = [::] /\ ps_challenge st = r_y r,
      sorted ltn (om_keys (ev_polys (sc_ev sp))) && sorted ltn (om_keys (ev_points (sc_ev sp))) && sorted ltn (om_keys (sc_commitments sp)),
      forall k, om_get (ev_polys (sc_ev sp)) k = batches r k,
      forall k, om_get (ev_points (sc_ev sp)) k = omap (fun b => [seq points (r_y r) k i | i <- iota 0 (size b)]) (batches r k) &
      forall k, om_get (sc_commitments sp) k = omap commit_polys (batches r k)].
Proof.
move=> hr hst.
have [perm [_ _ _ _ hs]] := preprocessP hpre.
have hc := commitP omega tr_start challenge absorb absorb_hash iteration committable scheme_setup witnesses d cs hs.
move: hc; rewrite hr => -[st']; rewrite hst => -[<-] [_ ey _ _ hh].
have [p1 p2 _ _ p5] := preprocessed_sizes hfit hpre.
have [|sp' hsp [e1 e2 epol hso hpt]] := register iterationP hfit hpre (r_y r) hr (holds_sized hh); first by move=> k /=; case: (batches r k).
rewrite /prover_evaluation_points p1 p2 p5 addnn -mul2n ey hsp => -[<-].
have /andP[/andP[h1 h2] h3] := h_sorted hh.
split=> //; first by rewrite epol h1 hso e1 h3.
  by move=> k; rewrite epol (h_polys hh).
by move=> k; rewrite e1 (h_commitments hh); case: (batches r k).
Qed.
(** Every batch that the prover commits to could be committed to. *)
Lemma honest_committable r k b : run = Some r -> batches r k = Some b -> committable b.
Proof.
have [perm [_ _ _ hcf _]] := preprocessP hpre.
rewrite /prover_run => /ogP[hv] /olP[p hp] /olP[l hl]; cbv zeta => /ogP[hb] /olP[g hg] /olP[q hq] /ogP[hq'] [<-].
rewrite /run_batches /=.
case: (k == FIXED_VALUES_BATCH); first by move=> [<-].
case: (k == VARIABLE_VALUES_BATCH); first by move=> [<-].
case: (k == PERMUTATION_BATCH).
  by case: (copy || lookup) hb => //= hb [<-].
case: (k == QUOTIENT_BATCH); first by move=> [<-].
case: (k == LOOKUP_BATCH) => //; move: hl; rewrite /run_lookup; case: (lookup) => // /olP[res hres] /ogP[hc] [<-] /= [<-].
exact: hc.
Qed.

Lemma honest_accept r st : run = Some r -> commit pp witnesses d cs s = Some st ->
  (forall sp, prover_evaluation_points omega pp cs d (ps_challenge st) (ps_scheme st) = Some sp -> opens (ps_data st) sp (ps_transcript st)) ->
  exists alphas pf, [/\ size alphas = 8%N, prove pp witnesses d cs s = Some pf, pf_challenge pf = r_y r &
    verify cd pf d cs s = Some (((\sum_(aF <- zip alphas (Fs r)) aF.1 *: aF.2) %% vanishing_polynomial F rows).[r_y r] == 0)].
Proof.
move=> hr hst hop.
have [perm [_ _ [[e1 e2 _ _ _] [_ _ _ e3]] _ hs]] := preprocessP hpre.
have hc := commitP omega tr_start challenge absorb absorb_hash iteration committable scheme_setup witnesses d cs hs.
move: hc; rewrite hr => -[st']; rewrite hst => -[<-] [[ed et] ey hsort hcm hh].
have hpolys k : om_get (ev_polys (sc_ev (ps_scheme st))) k = batches r k by exact: (h_polys hh).
have [p1 p2 p3 p4 p5] := preprocessed_sizes hfit hpre.
have [|sp hsp [_ _ epol hso hpt]] := register iterationP hfit hpre (r_y r) hr (holds_sized hh); first by move=> k /=; case: (batches r k).
have hsp' : prover_evaluation_points omega pp cs d (ps_challenge st) (ps_scheme st) = Some sp.
  by rewrite /prover_evaluation_points p1 p2 p5 addnn -mul2n ey.
have [z [pi [tr1 [hpe hz hve]]]] := hop _ hsp'.
have hz' k : om_get z k = omap (fun b => [seq [seq (nth 0 b i).[x] | x <- opening_points omega (r_y r) copy lookup d n (cd_permutation_parts cd) (cd_columns_rotations cd) k i] | i <- iota 0 (size b)]) (batches r k).
  rewrite hz epol hpolys hpt; case: (batches r k) => //= b; congr Some; apply/eq_in_map => i; rewrite mem_iota /= add0n => hi.
  by rewrite (nth_map 0%N) ?size_iota // nth_iota.
have hz2 k : k != FIXED_VALUES_BATCH -> z_size z k = omap size (om_get (ev_polys (sc_ev (ps_scheme st))) k).
  by move=> _; rewrite /z_size hz' hpolys; case: (batches r k) => //= b; rewrite size_map size_iota.
have [sp2 [sv [hsp2 hsv esv _]]] := same_points iterationP hfit hpre (r_y r) hst hz2.
have {hsp2} esp : sp2 = sp by move: hsp'; rewrite ey hsp2 => -[].
have hcm' k : k != FIXED_VALUES_BATCH -> om_get (ps_commitments st) k = omap commit_polys (batches r k).
  by move=> hk; rewrite hcm (negPf hk).
have [alphas [ha hq hv]] := honest_verifier scheme_verify_eval iterationP hfit hpre hr hz' hcm' hwithin hopt hdeg pi s.
exists alphas, (Proof (ps_commitments st) (r_y r) (z, pi)); split=> //.
  by rewrite /placeholder_prove hst /= /placeholder_open hsp' /= hpe /= ey.
rewrite hv hsv /= -ed -et; have [|||tr2 ->] := hve sv (om_set (ps_commitments st) FIXED_VALUES_BATCH (cd_fixed_values cd)).
- by rewrite esv esp.
- exact: sorted_om_set.
- move=> k; rewrite om_get_set epol hpolys eq_sym; case: eqP => [->|/eqP nk]; last by rewrite hcm' // eq_sym.
  by rewrite /run_batches eqxx /= e3.
rewrite /= -eval_divp; congr (Some (_ == _ * _)).
have := hq; rewrite quotientE; set q := (_ %/ _) => hq'.
have [hle|hlt] := leqP (size (coefficients q)) (split_polynomial_size rows n (lookup_poly_degree_bound cs) (cd_max_gates_degree cd) chunks * rows); last first.
  by move/(C30_overflow _ _ r0): hlt; rewrite hq'.
have [ts [ets _ _ hrec]] := C30_committed r0 hle.
by move: ets; rewrite hq' => -[->]; rewrite hrec coefficientsK.
Qed.
End Main.

(** ** The stages of the prover on a table that satisfies the circuit *)
Local Arguments draw : simpl never.
Lemma perm_transcript rows pd cols tr Fs b tr' : perm_prove_eval omega rows challenge pd cols tr = Some (Fs, b, tr') ->
  tr' = (draw challenge (pd_permutation_parts pd - 1) (challenge (challenge tr).2).2).2.
Proof.
rewrite /perm_prove_eval; case: (challenge tr) => beta tr1 /=; case: (challenge tr1) => gamma tr2 /=.
case: ifP => // _; case: ifP => // _; case: ifP => // _.
case: (draw challenge _ tr2) => al tr3 /=; case: ifP => _.
  by case: (vget _ 0) => //= g; case: (vget _ 0) => //= h [_ _ <-].
by case: (perm_sum _ _ _ _ _ _) => //= s [_ _ <-].
Qed.

Lemma omapM_col rows cols r : omapM (column_polynomial_dfs omega rows) cols = Some r -> r = [seq dfs_of_values omega rows c | c <- cols].
Proof. exact: columnsE. Qed.

Lemma columns_some rows (cols : seq (seq F)) : all (fun c => size c == rows) cols -> exists r, omapM (column_polynomial_dfs omega rows) cols = Some r.
Proof.
elim: cols => [|c cols ih] /=; first by exists [::].
by case/andP=> hc /ih[r er]; rewrite /column_polynomial_dfs hc /= er; eexists.
Qed.

Section Table.
Variables (cs : constraint_system F) (t : plonk_table F) (d : table_description) (chunks : nat) (delta : F) (hash : H)
  (pp : preprocessed_data F C H D) (s : scheme F C) (witnesses : seq {poly F}).
Hypothesis prim : (td_rows d).-primitive_root omega.
Hypotheses (hshape : table_shape d t) (hok : circuit_ok cs d chunks)
  (hw : omapM (column_polynomial_dfs omega (td_rows d)) (pr_witnesses (pt_private t)) = Some witnesses)
  (hpre : preprocess cs (pt_public t) d (fresh F C) chunks delta hash = Some (pp, s)).
Notation cd := (pp_common pp).
Notation pt := (prover_table pp witnesses).
Notation copy := (size (cs_copy_constraints cs) != 0%N).
Notation lookup := (size (cs_lookup_gates cs) != 0%N).
Notation columns := (cd_permuted_columns cd).
Notation rows := (td_rows d).
Notation usable := (td_usable_rows d).
Notation bounded := (bounded rows).
Notation ccs := (cs_copy_constraints cs).
Notation all_columns := (pr_witnesses (pt_private t) ++ pu_public_inputs (pt_public t) ++ pu_constants (pt_public t) ++ pu_selectors (pt_public t)).

Lemma size_omapM_eq (A B : Type) (f : A -> option B) l r : omapM f l = Some r -> size r = size l.
Proof. exact: omapM_size. Qed.
Lemma table_fits : fits_description d (pt_public t) witnesses.
Proof.
by case/and5P: hshape => /eqP h1 h2 h3 h4 _; rewrite /fits_description (omapM_size hw) -h1 eqxx h2 h3 h4.
Qed.
Lemma table_polynomials : polynomials_of_table omega rows t = Some pt.
Proof.
have [perm [_ [_ [e1 e2 e3]] _ _ _]] := preprocessP hpre.
by rewrite /polynomials_of_table hw /= e1 /= e2 /= e3.
Qed.
Lemma table_bounded v p : variable_polynomial pt v = Some p -> (size p <= rows)%N.
Proof.
rewrite (table_polynomial v table_polynomials); case: (variable_column t v) => //= c.
by rewrite /column_polynomial_dfs; case: ifP => // _ [<-]; exact: size_dfs.
Qed.
Lemma table_columns_dfs : table_columns pt = [seq dfs_of_values omega rows c | c <- all_columns].
Proof.
have [perm [_ [_ [/omapM_col e1 /omapM_col e2 /omapM_col e3]] _ _ _]] := preprocessP hpre.
by rewrite /table_columns /= e1 e2 e3 (omapM_col hw) !map_cat.
Qed.
Lemma in_table_column v : PlaceholderSpec.in_table d v -> isSome (variable_column t v).
Proof.
case/and5P: hshape => /eqP h1 /eqP h2 /eqP h3 /eqP h4 _.
rewrite /PlaceholderSpec.in_table /variable_column /witness /public_input /constant /selector.
case: (pv_type v) => // h; rewrite (vget_nth [::]) //.
- by rewrite -h1 in h.
- by rewrite -h2 in h.
- by rewrite -h3 in h.
by rewrite -h4 in h.
Qed.

(** *** Permutation *)
Lemma copy_cell v : copy_cell_ok d v -> exists i r, [/\ global_index d v = Some i, global_index d (permuted_variable v) = Some i, names d v (i, r),
  (i < td_witness d + td_public_input d + td_constant d)%N & (r < usable)%N].
Proof.
rewrite /copy_cell_ok /PlaceholderSpec.in_table /names /global_index; case: (pv_rotation v) => [r|r]; last by rewrite !andbF.
case/and3P=> h1 h2 hr; move: h1 h2 => /=; case: (pv_type v) => // h1 _; do 2 eexists; split; try by []; slia.
Qed.
Local Arguments copy_cell {v} _.
Let hcopy : forall cc, List.In cc ccs -> copy_cell_ok d (cc_first cc) && copy_cell_ok d (cc_second cc).
Proof. by case: hok. Qed.
Lemma names_inj v x y : names d v x -> names d v y -> x = y.
Proof. by move=> /namesE h1 /namesE; rewrite h1 => -[]. Qed.
Lemma copies_wf : well_formed d ccs.
Proof.
move=> i cc /vget_in hcc; have /andP[/copy_cell[i1 [r1 [_ _ h1 _ _]]] /copy_cell[i2 [r2 [_ _ h2 _ _]]]] := hcopy hcc.
by split; eexists; eassumption.
Qed.
Lemma permuted_setP v : v \in permuted_set ccs -> exists2 w, v = permuted_variable w & copy_cell_ok d w.
Proof.
rewrite mem_undup => /flattenP[l]; elim: ccs hcopy => [|cc l' ih] //= hcp; rewrite inE => /orP[/eqP->|]; last first.
  by apply: ih => c hc; apply: hcp; right.
have /andP[h1 h2] := hcp cc (or_introl erefl).
by rewrite !inE => /orP[] /eqP->; [exists (cc_first cc)|exists (cc_second cc)].
Qed.
Local Arguments permuted_setP {v} _.
Lemma permuted_columnsE : omapM (global_index d) (iteration (permuted_set ccs)) = Some columns.
Proof. by have [perm [[[_ h] _] _ _ _ _]] := preprocessP hpre. Qed.
Lemma mem_iteration v : (v \in iteration (permuted_set ccs)) = (v \in permuted_set ccs).
Proof. exact: perm_mem. Qed.
Lemma columns_uniq : uniq columns.
Proof.
have hu : uniq (iteration (permuted_set ccs)) by rewrite (perm_uniq (iterationP _)) undup_uniq.
have hp v : v \in iteration (permuted_set ccs) -> exists2 w, v = permuted_variable w & copy_cell_ok d w by rewrite mem_iteration; exact: permuted_setP.
move: (iteration _) (columns) hu hp permuted_columnsE; elim=> [|v l ih] cols /=; first by move=> _ _ [<-].
case/andP=> hv hu hp; case ei : (global_index d v) => [i|] //=.
case em : (omapM _ l) => [r|] //= [<-] /=; rewrite (ih r) // ?andbT; last by move=> w hwl; apply: hp; rewrite inE hwl orbT.
apply/negP => /(nthP 0%N)[k hk ek].
have := omapM_vget k em; rewrite (vget_nth 0%N hk) ek.
case ev : (vget l k) => [w|] //= /esym ew.
have hwl : w \in l by exact: (vget_mem ev).
suff evw : v = w by rewrite evw hwl in hv.
have [v1 e1 /and3P[h1 h1' _]] := hp v (mem_head _ _).
have [w1 e2 /and3P[h2 h2' _]] : exists2 w1, w = permuted_variable w1 & copy_cell_ok d w1 by apply: hp; rewrite inE hwl orbT.
move: ei ew; rewrite e1 e2 /permuted_variable; move: h1 h1' h2 h2'; rewrite /PlaceholderSpec.in_table /global_index /=.
case: (pv_type v1) => // h1 _; case: (pv_type w1) => // h2 _ [<-] [] hh; try by (exfalso; slia).
- by rewrite hh.
- by have -> : pv_index v1 = pv_index w1 by slia.
by have -> : pv_index v1 = pv_index w1 by slia.
Qed.
Lemma columns_range i : i \in columns -> (i < td_witness d + td_public_input d + td_constant d)%N.
Proof.
move=> /(nthP 0%N)[k hk ek].
have := omapM_vget k permuted_columnsE; rewrite (vget_nth 0%N hk) ek.
case ev : (vget _ k) => [w|] //= /esym ew.
have := vget_mem ev; rewrite mem_iteration => /permuted_setP[v evw /copy_cell[i' [r [_ h2 _ h3 _]]]].
by move: ew; rewrite evw h2 => -[<-].
Qed.
Local Arguments columns_range {i} _.
Lemma permuted_in_columns v i : v \in permuted_set ccs -> global_index d v = Some i -> i \in columns.
Proof.
rewrite -mem_iteration => hv hi; have hk : (index v (iteration (permuted_set ccs)) < size (iteration (permuted_set ccs)))%N by rewrite index_mem.
have := omapM_vget (index v (iteration (permuted_set ccs))) permuted_columnsE; rewrite (vget_nth v hk) nth_index //= hi.
by move/vget_mem.
Qed.
Lemma in_permuted cc : List.In cc ccs -> permuted_variable (cc_first cc) \in permuted_set ccs /\ permuted_variable (cc_second cc) \in permuted_set ccs.
Proof.
rewrite !mem_undup; elim: ccs => [|c l ih] //= [->|/ih[h1 h2]]; rewrite !inE; first by rewrite !eqxx !orbT.
by rewrite h1 h2 !orbT.
Qed.
Lemma constrained_columns x y : constrained d ccs x y -> [/\ x.1 \in columns, y.1 \in columns, (x.2 < usable)%N & (y.2 < usable)%N].
Proof.
case=> i [cc /vget_in hcc [hx hy]]; have /andP[/copy_cell[i1 [r1 [_ g1 n1 _ u1]]] /copy_cell[i2 [r2 [_ g2 n2 _ u2]]]] := hcopy hcc.
have [p1 p2] := in_permuted hcc.
by rewrite (names_inj hx n1) (names_inj hy n2); split=> //=; [exact: permuted_in_columns p1 g1|exact: permuted_in_columns p2 g2].
Qed.
Lemma columns_ne : copy -> columns != [::].
Proof.
case e : ccs => [|cc l] // _; have [h _] : permuted_variable (cc_first cc) \in permuted_set ccs /\ permuted_variable (cc_second cc) \in permuted_set ccs.
  by apply: in_permuted; rewrite e; left.
have /andP[/copy_cell[i1 [r1 [_ g1 _ _ _]]] _] : copy_cell_ok d (cc_first cc) && copy_cell_ok d (cc_second cc) by apply: hcopy; rewrite e; left.
by have := permuted_in_columns h g1; case: (columns).
Qed.
Lemma size_columns_lt i : i \in columns -> (i < size all_columns)%N.
Proof.
move/columns_range => h; apply: (leq_trans h); case/and5P: hshape => /eqP h1 /eqP h2 /eqP h3 _ _.
by rewrite !size_cat -h1 -h2 -h3 /witnesses_amount /public_inputs_amount /constants_amount; slia.
Qed.
Lemma column_rows i : (i < size all_columns)%N -> size (nth [::] all_columns i) = rows.
Proof. by move=> h; case/and5P: hshape => _ _ _ _ /all_nthP/(_ i h)/eqP. Qed.
Lemma permuted_polynomials : omapM (vget (table_columns pt)) columns = Some [seq column omega d (cell_value t) i | i <- columns].
Proof.
move: size_columns_lt; elim: (columns) => [|i l ih] //= h; rewrite ih ?table_columns_dfs; last by move=> j hj; apply: h; rewrite inE hj orbT.
have hi : (i < size all_columns)%N by apply: h; exact: mem_head.
rewrite vget_map (vget_nth [::]) //=; congr (Some (_ :: _)); rewrite /column; congr (dfs_of_values _ _ _).
rewrite -[LHS](map_nth_iota 0) column_rows //.
Qed.

Let ur : (usable < rows)%N.
Proof. by have [_ /andP[/andP[h1 h2] _] _ _ _] := hok. Qed.
Let u0 : (0 < usable)%N.
Proof. by have [_ /andP[/andP[h1 h2] _] _ _ _] := hok. Qed.
Let hdvd : (rows %| 2 ^ 64)%N = true.
Proof. by have [_ /andP[_ h] _ _ _] := hok. Qed.

(** What is known of a constraint polynomial with bound [k] on its degree (in columns): it vanishes on the rows. *)
Definition good (k : nat) (f : {poly F}) : Prop :=
  [/\ bounded k f, chunks != 0%N -> bounded chunks.+1 f & forall j, (j < rows)%N -> f.[omega ^+ j] = 0].
Lemma good0 k : good k 0.
Proof. by split=> [|_|j _]; rewrite ?horner0 //; exact: bounded_zero. Qed.
Lemma one_chunks : chunks != 0%N -> (1 < chunks)%N.
Proof.
have [perm [_ _ [[_ _ _ _ [h1 h2]] _] _ _]] := preprocessP hpre.
by move=> hc; move: h2; rewrite (negbTE hc) /=; move: h1; slia.
Qed.

Definition permutation_transcript (tr : T) : T :=
  if copy then (draw challenge (cd_permutation_parts cd - 1) (challenge (challenge tr).2).2).2 else tr.
Lemma permutation_ok tr :
  (forall x y, constrained d ccs x y -> cell_value t x = cell_value t y) ->
  (copy -> copy_challenges_ok omega cs d t columns delta (challenge tr).1 (challenge (challenge tr).2).1) ->
  exists p, [/\ run_permutation omega challenge iteration pp witnesses d cs tr = Some p,
    p.2 = permutation_transcript tr, all (bounded 1) p.1.2, size p.1.1 = 3%N & forall f, f \in p.1.1 -> good (size columns).+2 f].
Proof.
move=> hsat hch; rewrite /run_permutation /permutation_transcript; case hc : copy; last first.
  by exists ([:: 0; 0; 0], [::], tr); split=> // f; rewrite !inE => /or3P[] /eqP->; exact: good0.
have [perm [[[ecr ecols] [eid esig]] [[eql eqb] _] [[ed ech _ _ _] [eparts _ _ _]] _ _]] := preprocessP hpre.
rewrite ecols /= permuted_polynomials /=.
have hnd x y : x.1 \in columns -> (x.2 < usable)%N -> next perm x = Some y ->
  (challenge tr).1 * label omega columns delta y + (challenge (challenge tr).2).1 + cell_value t x != 0.
  by move=> h1 h2 h3; exact: (hch hc perm).
have [S_sigma [Fs [V_P [ps [tr' [e1 e2 [e3 _] _ e5]]]]]] :=
  C22_complete prim copies_wf ecr columns_uniq (columns_ne hc) (fun i hi => columns_range hi) ur constrained_columns hsat eparts hnd.
have epd : perm_data_of omega pp = preprocessed omega d columns delta usable chunks (cd_permutation_parts cd) S_sigma.
  rewrite /perm_data_of /preprocessed ed ech eid eql eqb; congr (PermData _ _ _ _ _ _ _ _).
  by move: esig; rewrite e1 => -[->].
have hb k : (0 < k)%N -> (size columns <= k)%N \/ (1 < chunks /\ chunks - 1 <= k)%N -> all (bounded k.+2) Fs && all (bounded 1) (V_P :: ps).
  move=> k0 hk; apply: (@perm_bounded F omega rows T challenge prim _ _ tr _ _ tr' k _ _ _ _ _ _ k0 _ e2).
  - by apply/allP => p /mapP[i _ ->]; exact: bounded_dfs.
  - rewrite /=; move: e1; rewrite (permutation_polynomialsE omega delta copies_wf ecr (fun i hi => columns_range hi)) => -[<-].
    by apply/allP => p /mapP[i _ ->]; exact: bounded_dfs.
  - by apply/allP => p /mapP[i _ ->]; exact: bounded_dfs.
  - exact: bounded_dfs.
  - exact: bounded_dfs.
  - exact: bounded_dfs.
  by rewrite size_map.
have n0 : (0 < size columns)%N by rewrite lt0n size_eq0 columns_ne.
have /andP[hF hV] := hb _ n0 (or_introl (leqnn _)).
rewrite epd ed e2; exists (Fs, V_P :: ps, tr'); split=> //=; first exact: (perm_transcript e2).
move=> f hf; split=> [|hch0|j]; [exact: (allP hF)| |exact: e5].
have c1 := one_chunks hch0.
have /andP[hF' _] : all (bounded (chunks - 1).+2) Fs && all (bounded 1) (V_P :: ps) by apply: hb; [slia|right].
have -> : chunks.+1 = (chunks - 1).+2 by slia.
exact: (allP hF').
Qed.

(** *** Lookup *)
Lemma in_flatten_map (A : Type) (B : eqType) (f : A -> seq B) l a x : List.In a l -> x \in f a -> x \in flatten [seq f a | a <- l].
Proof. by elim: l => [|b l ih] //= [->|h] hx; rewrite mem_cat ?hx // (ih h hx) orbT. Qed.
Lemma table_lookup_columns : lookup -> lookup_columns (cs_lookup_gates cs) (cs_lookup_tables cs) t.
Proof.
move=> hl; case: hok => -[_ /(_ hl)[h1 h2]] _ _ _ /(_ hl)[h3 _].
have hsel i r : PlaceholderSpec.in_table d (PlonkVariable i r false CSelector) -> isSome (selector t i) by move/in_table_column.
split.
- by move=> g hg; apply: (hsel _ 0); apply: (h1 g) => //; rewrite mem_head.
- move=> g c e v hg hc he hv; apply: in_table_column; apply: (h1 g) => //; rewrite inE; apply/orP; right.
  by apply: in_flatten_map hc _; exact: in_flatten_map he _.
- by move=> tb hb; apply: (hsel _ 0); apply: (h2 tb) => //; rewrite mem_head.
move=> tb o hb ho; split; first exact: h3.
move=> v hv; have /in_table_column // : PlaceholderSpec.in_table d (PlonkVariable (pv_index v) 0 false CConstant).
apply: (h2 tb) => //; rewrite /lookup_table_variables /= inE; apply/orP; right; rewrite mem_cat; apply/orP; left.
by apply/mapP; exists v => //; apply/flattenP; exists o.
Qed.
Lemma size_sumn s' : all (fun m => 0 < m)%N s' -> (size s' <= sumn s')%N.
Proof. by elim: s' => //= m s' ih /andP[h /ih]; move: h; slia. Qed.
Lemma costs_bound : lookup -> sumn (item_costs (cs_lookup_gates cs) (cs_lookup_tables cs)) = lookup_poly_degree_bound cs.
Proof.
rewrite /lookup_poly_degree_bound /item_costs lt0n => ->; rewrite sumn_cat !sumn_flatten -!map_comp; congr (_ + sumn _)%N.
by apply: eq_map => tb /=; rewrite sumn_nseq mulnC.
Qed.
Lemma costs_pos gates tables : all (fun m => 0 < m)%N (@item_costs F gates tables).
Proof.
rewrite all_cat; apply/andP; split.
  by elim: gates => //= g gates ih; rewrite all_cat ih andbT; elim: (lg_constraints g).
by elim: tables => //= tb tables ih; rewrite all_cat ih andbT; elim: (size _).
Qed.

Lemma lookup_ok tr : (forall ps, all (fun p : {poly F} => size p <= rows)%N ps -> committable ps) ->
  lookup_columns_ok cs d t -> (lookup -> lookups_hold (cs_lookup_gates cs) (cs_lookup_tables cs) t usable) ->
  (lookup -> separates (cs_lookup_tables cs) t usable (challenge tr).1) ->
  exists sorted, let tr2 := absorb (challenge tr).2 (commit_polys sorted) in
    (lookup -> nondegenerate (cs_lookup_tables cs) t usable (challenge tr).1 (challenge tr2).1 (challenge (challenge tr2).2).1) ->
    exists l, [/\ run_lookup omega challenge absorb committable commit_polys pp witnesses cs tr = Some l,
      all (bounded 1) l.1.1.2, all (bounded 1) l.1.2, size l.1.1.1 = 4%N &
      forall f, f \in l.1.1.1 -> good (lookup_poly_degree_bound cs).+2 f].
Proof.
move=> hcomm hcols hhold hsep; rewrite /run_lookup; case hl : lookup; last first.
  exists [::] => _; exists ([:: 0; 0; 0; 0], [::], [::], tr); split=> // f; rewrite !inE.
  by case/or4P=> /eqP->; exact: good0.
have [hbool hlay] := hcols hl; case: (hok) => _ _ [_ [hdeg _]] _ /(_ hl)[hopt hmax].
have [sorted hs] := C26_complete prim u0 ur absorb commit_polys table_polynomials hdvd (table_lookup_columns hl) hbool hlay (hhold hl) hl hmax (hsep hl).
exists sorted => hnd; have [res [tr' [e1 [e2 _] _ e3 e4]]] := hs (hnd isT).
have [perm [_ [[eql eqb] _] [[ed ech _ _ _] _] _ _]] := preprocessP hpre.
have eld : lookup_data_of omega pp cs = preprocessed_lookup omega rows usable (cs_lookup_gates cs) (cs_lookup_tables cs) chunks.
  by rewrite /lookup_data_of /preprocessed_lookup ed ech eql eqb.
have hne : options (cs_lookup_tables cs) != [::] by case: hlay.
have [hpos hsum] := parts_ok hl hmax hne.
rewrite -size_costs in hsum.
have hb k : (0 < k)%N -> (sumn (item_costs (cs_lookup_gates cs) (cs_lookup_tables cs)) <= k)%N \/
   [/\ chunks != 0%N, fits (cs_lookup_gates cs) (cs_lookup_tables cs) chunks & (chunks - 1 <= k)%N] ->
  [&& all (bounded k.+2) (lr_F res), all (bounded 1) (lr_sorted res) & all (bounded 1) (lr_V_L res :: lr_parts res)].
  move=> k0 hk; apply: (lookup_bounded prim table_bounded hpos hsum hk hdeg _ _ k0 e1); exact: bounded_dfs.
have c0 : (0 < sumn (item_costs (cs_lookup_gates cs) (cs_lookup_tables cs)))%N.
  apply: leq_trans (size_sumn (costs_pos _ _)); rewrite size_costs addn_gt0; apply/orP; right.
  have <- : size (options (cs_lookup_tables cs)) = lookup_options_num (cs_lookup_tables cs).
    rewrite /options /numbered size_flatten /shape -map_comp /lookup_options_num; congr sumn.
    by elim: (cs_lookup_tables cs) 1%N => //= tb tbs ih k; rewrite ih /= size_map.
  by case: (options _) hne.
have /and3P[hF hS hV] := hb _ c0 (or_introl (leqnn _)).
rewrite eld ed e1 /= hcomm; last by apply: sub_all hS => p; rewrite /C28_LookupParts.bounded muln1 prednK // (leq_trans _ ur).
eexists; split; [by []|exact: hS|exact: hV|exact: e3|].
move=> f hf; split=> [|hch0|j]; [|  |exact: e4].
  by rewrite -costs_bound //; exact: (allP hF).
have c1 := one_chunks hch0; case: hmax => [hm|hm]; first by rewrite hm in hch0.
have /and3P[hF' _ _] := hb (chunks - 1)%N ltac:(slia) (or_intror (And3 hch0 hm (leqnn _))).
have -> : chunks.+1 = (chunks - 1).+2 by slia.
exact: (allP hF').
Qed.

(** *** Gates *)
Lemma gates_ok tr : satisfied (cs_gates cs) t usable ->
  exists2 f, gates_prove_eval omega challenge (cs_gates cs) pt (N.of_nat (cd_max_gates_degree cd)) (1 - pp_q_last pp - pp_q_blind pp) tr =
    Some (f, (challenge tr).2) & good (cd_max_gates_degree cd).+2 f.
Proof.
move=> hsat; have [perm [_ [[eql eqb] _] [[ed ech _ edeg [_ hdc]] _] _ _]] := preprocessP hpre.
case: (hok) => -[hw1 _] _ [hfit [_ hd31]] _ _.
have hcols : has_columns (cs_gates cs) t by move=> g v hg hv; apply: in_table_column; exact: hw1 hg hv.
rewrite eql eqb -/(mask omega rows usable).
have h31 : N.lt (N.of_nat (cd_max_gates_degree cd)) (N.pow 2 31) by rewrite edeg.
have [f e1 e2] := C29_complete challenge prim tr table_polynomials hdvd h31 hcols hsat.
exists f => //.
have hf : f = the_sum omega pt (cs_gates cs) (challenge tr).1 * mask omega rows usable.
  move: e1; rewrite prover_ok //; last exact: columns_values table_polynomials hcols.
  by case.
have hb : bounded (cd_max_gates_degree cd).+2 f.
  rewrite hf -addn1; apply: boundedM; last by apply: boundedB; [apply: boundedB; [exact: bounded_one|]|]; exact: bounded_dfs.
  by apply: (the_sum_bounded prim table_bounded) => //; rewrite edeg leq_maxl.
split=> // hc; apply: bounded_le hb; move: hdc; rewrite (negbTE hc) /=; slia.
Qed.

(** *** Quotient *)
Lemma quotient_ok (Fp Fl : seq {poly F}) f tr : (forall g, g \in Fp -> good (size columns).+2 g) ->
  (forall g, g \in Fl -> good (lookup_poly_degree_bound cs).+2 g) -> good (cd_max_gates_degree cd).+2 f ->
  exists2 q, prover_quotient challenge pp cs d (Fp ++ Fl ++ [:: f]) tr = Some q & all (fun p : {poly F} => size p <= rows)%N q.1.
Proof.
move=> hp hl hf; have [perm [[_ [eid _]] _ [[ed ech _ _ _] _] _ _]] := preprocessP hpre.
rewrite /prover_quotient; case: (draw challenge 8 tr) => alphas tr'.
have hall k : (forall g, g \in Fp -> bounded k.+1 g) -> (forall g, g \in Fl -> bounded k.+1 g) -> bounded k.+1 f -> all (bounded k.+1) (Fp ++ Fl ++ [:: f]).
  by move=> h1 h2 h3; rewrite !all_cat /= h3 !andbT; apply/andP; split; apply/allP.
have r1 : (1 < rows)%N by apply: leq_trans ur; rewrite ltnS.
have sid : size (pp_identity_polynomials pp) = size columns by rewrite eid size_map size_iota.
rewrite ed ech sid.
set q := quotient_polynomial _ _ _; set ss := split_polynomial_size _ _ _ _ _.
have hq : (size (coefficients q) <= ss * rows)%N.
  apply: C30_fits => //.
    apply: (quotient_size prim); apply: hall.
    - move=> g /hp[hb _ _]; apply: bounded_le hb; rewrite /maxn; do 2 case: ifP; slia.
    - move=> g /hl[hb _ _]; apply: bounded_le hb; rewrite /maxn; do 2 case: ifP; slia.
    by case: hf => hb _ _; apply: bounded_le hb; rewrite /maxn; do 2 case: ifP; slia.
  case: (eqVneq chunks 0%N) => [|hc]; [by left|right].
  apply: (@leq_trans (chunks * (rows - 1))%N); last by rewrite leq_mul2l leq_subr orbT.
  apply: (quotient_size prim); apply: hall.
  - by move=> g /hp[_ hb _]; exact: hb.
  - by move=> g /hl[_ hb _]; exact: hb.
  by case: hf => _ hb _; exact: hb.
have [ts [e1 _ e3 _]] := C30_committed (ltnW r1) hq.
by rewrite /= e1 /=; eexists; first by []; apply/allP => p /e3.
Qed.

(** *** The prover *)
Notation Fs r := (r_F_perm r ++ r_F_lookup r ++ [:: r_F_gates r]).
Notation run := (prover_run omega tr_start challenge absorb absorb_hash iteration committable commit_polys scheme_setup pp witnesses d cs).
Definition start := variable_transcript tr_start absorb absorb_hash commit_polys scheme_setup pp witnesses.
Lemma bounded1E (p : {poly F}) : bounded 1 p = (size p <= rows)%N.
Proof. by rewrite /C28_LookupParts.bounded muln1 prednK // (leq_trans _ ur). Qed.
Lemma run_complete : (forall ps, all (fun p : {poly F} => size p <= rows)%N ps -> committable ps) ->
  satisfies cs d t -> lookup_columns_ok cs d t ->
  (copy -> copy_challenges_ok omega cs d t columns delta (challenge start).1 (challenge (challenge start).2).1) ->
  let tr := permutation_transcript start in
  (lookup -> separates (cs_lookup_tables cs) t usable (challenge tr).1) ->
  exists sorted, let tr2 := absorb (challenge tr).2 (commit_polys sorted) in
    (lookup -> nondegenerate (cs_lookup_tables cs) t usable (challenge tr).1 (challenge tr2).1 (challenge (challenge tr2).2).1) ->
    exists2 r, run = Some r & forall f j, f \in Fs r -> (j < rows)%N -> f.[omega ^+ j] = 0.
Proof.
move=> hcomm [sg sc sl] hlc hch tr hsep.
have hvar : committable (variable_batch pp witnesses).
  have [perm [_ [_ [/omapM_col e1 _ _]] _ _ _]] := preprocessP hpre.
  apply: hcomm; rewrite all_cat (omapM_col hw) e1; apply/andP; split; apply/allP => p /mapP[c _ ->]; exact: size_dfs.
have [p [hp hp2 hpb hp3 hpF]] := permutation_ok sc hch.
have [sorted hs] := lookup_ok hcomm hlc sl hsep.
exists sorted => tr2 hnd; have [l [hl hl1 hl2 hl3 hlF]] := hs hnd.
rewrite /prover_run hvar; rewrite -/start hp /= hp2 -/tr hl /=.
have -> : (copy || lookup) ==> committable (p.1.2 ++ l.1.2).
  apply/implyP => _; apply: hcomm; rewrite all_cat; apply/andP; split.
    by apply: sub_all hpb => f; rewrite bounded1E.
  by apply: sub_all hl2 => f; rewrite bounded1E.
set trg := (if _ then _ else _).
have [f -> hf] := gates_ok trg sg; rewrite /=.
have [q -> hq] := quotient_ok (challenge trg).2 hpF hlF hf; rewrite /= hcomm //; eexists; first by [].
move=> g j /=; rewrite !mem_cat inE => /or3P[/hpF[_ _ h]|/hlF[_ _ h]|/eqP->]; [exact: h|exact: h|].
by case: hf => _ _ h; exact: h.
Qed.

(** The honest prover is accepted if the scheme opens the state it reaches. *)
Lemma proof_complete : (forall ps, all (fun p : {poly F} => size p <= rows)%N ps -> committable ps) ->
  satisfies cs d t -> lookup_columns_ok cs d t ->
  (copy -> copy_challenges_ok omega cs d t columns delta (challenge start).1 (challenge (challenge start).2).1) ->
  let tr := permutation_transcript start in
  (lookup -> separates (cs_lookup_tables cs) t usable (challenge tr).1) ->
  exists sorted, let tr2 := absorb (challenge tr).2 (commit_polys sorted) in
    (lookup -> nondegenerate (cs_lookup_tables cs) t usable (challenge tr).1 (challenge tr2).1 (challenge (challenge tr2).2).1) ->
    exists2 st, commit pp witnesses d cs s = Some st &
      (forall sp, prover_evaluation_points omega pp cs d (ps_challenge st) (ps_scheme st) = Some sp -> opens (ps_data st) sp (ps_transcript st)) ->
      exists2 pf, prove pp witnesses d cs s = Some pf & verify cd pf d cs s = Some true.
Proof.
move=> hcomm hsat hlc hch tr hsep; have [sorted hs] := run_complete hcomm hsat hlc hch hsep.
exists sorted => tr2 hnd; have [r hr hF] := hs hnd.
have [perm [_ _ [[_ _ _ edeg _] _] _ hsc]] := preprocessP hpre.
have := commitP omega tr_start challenge absorb absorb_hash iteration committable scheme_setup witnesses d cs hsc.
rewrite hr => -[st hst _]; exists st => // hop.
case: (hok) => hwithin _ [_ [_ h31]] _ hopt.
have r0 : (0 < rows)%N by apply: leq_ltn_trans ur.
have h31' : N.lt (N.of_nat (cd_max_gates_degree cd)) (N.pow 2 31) by rewrite edeg.
have [alphas [pf [_ h1 _ h2]]] := honest_accept table_fits hpre r0 hwithin (fun hl => proj1 (hopt hl)) h31' hr hst hop.
exists pf => //; rewrite h2; congr Some; apply/eqP.
have /modp_eq0P -> : vanishing_polynomial F rows %| \sum_(aF <- zip alphas (Fs r)) aF.1 *: aF.2; last by rewrite horner0.
apply: (vanishing_dvd prim) => j hj; rewrite horner_sum big1_seq // => aF /andP[_ /zip_mem[_ h]].
by rewrite hornerZ (hF _ _ h hj) mulr0.
Qed.
End Table.

(** *** The preprocessor *)
Lemma omapM_in (A : eqType) (B : Type) (f : A -> option B) l : (forall x, x \in l -> isSome (f x)) -> exists r, omapM f l = Some r.
Proof.
elim: l => [|x l ih] h /=; first by exists [::].
have := h x (mem_head _ _); case: (f x) => // y _ /=.
by have [r ->] := ih (fun z hz => h z (@mem_behead _ (x :: l) _ hz)); eexists.
Qed.
Lemma in_map_inv (A : Type) (B : eqType) (f : A -> B) l y : y \in [seq f x | x <- l] -> exists2 x, List.In x l & y = f x.
Proof.
elim: l => //= x l ih; rewrite inE => /orP[/eqP->|/ih[z hz ->]]; first by exists x => //; left.
by exists z => //; right.
Qed.
Lemma in_flatten_inv (A : Type) (B : eqType) (f : A -> seq B) l y : y \in flatten [seq f x | x <- l] -> exists2 x, List.In x l & y \in f x.
Proof.
elim: l => //= x l ih; rewrite mem_cat => /orP[h|/ih[z hz hy]]; first by exists x => //; left.
by exists z => //; right.
Qed.
Arguments in_flatten_inv {A B f l y} _.
Lemma global_index_some d v : PlaceholderSpec.in_table d v -> exists2 i, global_index d v = Some i & (i < table_width d)%N.
Proof.
rewrite /PlaceholderSpec.in_table /global_index /table_width.
by case: (pv_type v) => // h; eexists; try by []; slia.
Qed.
Arguments global_index_some {d v} _.
Lemma rotations_ok (cs : constraint_system F) d : within d cs -> exists rs, columns_rotations cs d = Some rs.
Proof.
case=> h1 h2; rewrite /columns_rotations.
have hv vs (rs : seq (seq int)) : size rs = table_width d -> (forall v, v \in vs -> PlaceholderSpec.in_table d v) ->
    exists2 rs', ofold (insert_variable d) rs vs = Some rs' & size rs' = table_width d.
  move=> hs hvs; rewrite insert_variablesE.
  have [|l hl] := @omapM_in _ _ (fun v => omap (fun i => (i, pv_rotation v)) (global_index d v)) vs.
    by move=> v /hvs /global_index_some[i -> _].
  rewrite hl /=; have hall : all (fun ir => ir.1 < size rs)%N l.
    apply/allP => ir /(nthP (0%N, 0))[k hk ek]; have := omapM_vget k hl; rewrite (vget_nth (0%N, 0) hk) ek.
    case ev : (vget vs k) => [v|] //=; have /hvs/global_index_some[i -> hi] := vget_mem ev.
    by move=> -[->]; rewrite hs.
  have [rs' hrs'] := insert_rotations_ok hall; exists rs' => //.
  by have [e _ _ _] := insert_rotations hrs'; rewrite e.
have [|v /in_flatten_inv[g hg /in_flatten_inv[c hc hv']]|r1 -> s1] := hv (flatten [seq flatten [seq for_each_variable c | c <- g_constraints g] | g <- cs_gates cs]) (nseq (table_width d) [:: 0 : int]).
- by rewrite size_nseq.
- by apply: (h1 g v hg); rewrite /gate_variables inE; apply/orP; right; exact: in_flatten_map hc hv'.
rewrite /=; case: ifP => hl; last by eexists.
have [h3 h4] := h2 hl.
have [|r2 -> s2] := hv (flatten [seq flatten [seq flatten [seq for_each_variable e | e <- lc_lookup_input c] | c <- lg_constraints g] | g <- cs_lookup_gates cs]) r1 s1.
  move=> v /in_flatten_inv[g hg /in_flatten_inv[c hc /in_flatten_inv[e he hv']]].
  apply: (h3 g v hg); rewrite /lookup_gate_variables inE; apply/orP; right; apply: in_flatten_map hc _; exact: in_flatten_map he hv'.
rewrite /=; apply: insert_rotations_ok; rewrite s2; apply/allP => ir /in_flatten_inv[tb htb].
rewrite inE => /orP[/eqP->|].
  have := h4 tb (PlonkVariable (lt_tag_index tb) 0 false CSelector) htb; rewrite /lookup_table_variables mem_head => /(_ isT).
  by rewrite /PlaceholderSpec.in_table /table_width /=; slia.
case/mapP=> v hv' -> /=.
have := h4 tb (PlonkVariable (pv_index v) 0 false CConstant) htb; rewrite /lookup_table_variables /= inE mem_cat map_f // orbT => /(_ isT).
by rewrite /PlaceholderSpec.in_table /table_width /=; slia.
Qed.

(** On a circuit as specified, with constraints of positive degree below the number of chunks, preprocessing succeeds. *)
Lemma preprocess_ok (cs : constraint_system F) (t : plonk_table F) d chunks delta hash :
  (forall ps, all (fun p : {poly F} => size p <= td_rows d)%N ps -> committable ps) ->
  table_shape d t -> circuit_ok cs d chunks ->
  (0 < maxn (gates_degree (cs_gates cs)) (max_lookup_gates_degree (cs_lookup_gates cs)))%N ->
  (chunks = 0 \/ maxn (gates_degree (cs_gates cs)) (max_lookup_gates_degree (cs_lookup_gates cs)) < chunks)%N ->
  exists pp s, preprocess cs (pt_public t) d (fresh F C) chunks delta hash = Some (pp, s).
Proof.
move=> hcomm hshape hok d0 hch; have wf := copies_wf hok; rewrite /placeholder_preprocess d0.
have [cr [hcr _]] := C21_bijection wf; rewrite hcr /=.
have [|cols hcols] := @omapM_in _ _ (global_index d) (iteration (permuted_set (cs_copy_constraints cs))).
  by move=> v; rewrite mem_iteration => /(permuted_setP hok)[w -> /copy_cell[i [r [_ -> _ _ _]]]].
have hrange i : i \in cols -> (i < td_witness d + td_public_input d + td_constant d)%N.
  move=> /(nthP 0%N)[k hk ek]; have := omapM_vget k hcols; rewrite (vget_nth 0%N hk) ek.
  case ev : (vget _ k) => [w|] //= /esym ew.
  have := vget_mem ev; rewrite mem_iteration => /(permuted_setP hok)[v evw /copy_cell[i' [r [_ h2 _ h3 _]]]].
  by move: ew; rewrite evw h2 => -[<-].
rewrite /permuted_global_indices hcols /= (permutation_polynomialsE omega delta wf hcr hrange) /=.
case/and5P: (hshape) => _ _ _ _; rewrite !all_cat => /and4P[_ c1 c2 c3].
have [r1 h1] := columns_some c1; have [r2 h2] := columns_some c2; have [r3 h3] := columns_some c3.
rewrite h1 h2 h3 /=.
have -> : (chunks == 0%N) || (maxn (gates_degree (cs_gates cs)) (max_lookup_gates_degree (cs_lookup_gates cs)) < chunks)%N.
  by case: hch => [->|->]; rewrite ?eqxx ?orbT.
have [parts ->] : exists parts, permutation_partitions_num (size cols) chunks = Some parts.
  rewrite /permutation_partitions_num; case: (size cols == 0%N); first by eexists.
  case: (eqVneq chunks 0%N) => [|hc]; first by eexists.
  case: (eqVneq chunks 1%N) => [e|_]; last by eexists.
  by exfalso; case: hch => hh; move: hh d0 hc; rewrite e // ltnS leqn0 => /eqP->.
rewrite /=; set id := identity_polynomials _ _ _ _; set sigma := [seq _ | _ <- cols]; set ql := lagrange_polynomial _ _ _; set qb := selector_blind _ _ _.
rewrite /sc_commit /= hcomm.
  rewrite /=; case: hok => /rotations_ok[rs ->] _ _ _ _ /=; by do 2 eexists.
rewrite !all_cat /= !size_dfs (omapM_col h2) (omapM_col h3) /= ?andbT.
by repeat (apply/andP; split) => //; apply/allP => p /mapP[c _ ->]; exact: size_dfs.
Qed.
End Complete.
