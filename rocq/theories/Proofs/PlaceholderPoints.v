(** Proofs about the evaluation points that the Placeholder prover and verifier register. *)
From Coq Require Import NArith.
From mathcomp Require Import all_ssreflect all_algebra.
From Verif.Model Require Import Base OrderedMap HashMap Domain Expression PlonkVariable PlonkTable CycleRepresentation PolysEvaluator
  PermutationArgument GatesArgument LookupArgument Quotient Placeholder.
From Verif.Spec Require Import PlaceholderSpec.
From Verif.Proofs Require Import NatTac DomainProofs PermProofs TableProofs KzgProofs EvaluatorProofs MapProofs
  PlaceholderProofs PlaceholderState PlaceholderRun.
From Verif.Props Require Import C24_PermutationAgreement.
Set Implicit Arguments.
Unset Strict Implicit.
Unset Printing Implicit Defensive.
Import GRing.Theory.
Local Open Scope ring_scope.

Section Sizes.
Variables (F : fieldType) (omega : F) (rows : nat) (T : Type) (challenge : T -> F * T).
Lemma perm_sum_size alphas gs hs (parts : seq {poly F}) prev last s : perm_sum alphas gs hs parts prev last = Some s ->
  (size alphas <= size parts)%N && (size alphas < size gs)%N && (size alphas < size hs)%N.
Proof.
elim: alphas gs hs parts prev s => [|a al ih] [|g gs] [|h hs] // [|p parts] //= prev s.
by case e : (perm_sum _ _ _ _ _ _) => [r|] //= _; have := ih _ _ _ _ _ e; rewrite !ltnS.
Qed.
Lemma size_perm_parts u gs hs (p : seq F) : size (perm_parts omega u gs hs p) = minn (size gs) (size hs).
Proof. by elim: gs hs p => [|g gs ih] [|h hs] p //=; rewrite ?minn0 // ih minnSS. Qed.
Lemma perm_prove_sizes pd cols tr Fs b tr' : perm_prove_eval omega rows challenge pd cols tr = Some (Fs, b, tr') ->
  [/\ size Fs = 3, size b = pd_permutation_parts pd & pd_permutation_parts pd != 0]%N.
Proof.
rewrite /perm_prove_eval; case: (challenge tr) => beta tr1; case: (challenge tr1) => gamma tr2.
case/ogP=> _ /ogP[/eqP hg] /ogP[hp]; have := size_draw challenge (pd_permutation_parts pd - 1) tr2.
case: (draw _ _ _) => alphas tr3 /= hd; case: ifP => [/eqP h1|_].
  by case/olP=> g _ /olP[h _] [<- <- _]; rewrite h1.
case/olP=> s /perm_sum_size; rewrite hd => /andP[/andP[_ h1] h2] [<- <- _].
by rewrite /= size_map size_perm_parts !size_takel ?(ltnW h1) ?(ltnW h2) // minnn subn1 prednK // lt0n.
Qed.
End Sizes.
Arguments perm_prove_sizes {F omega rows T challenge pd cols tr Fs b tr'} _.

Section C32.
Variables (F : fieldType) (omega : F).
Variables (T : Type) (tr_start : T) (challenge : T -> F * T) (C H : Type) (absorb : T -> C -> T) (absorb_hash : T -> H -> T).
Variable iteration : seq plonk_variable -> seq plonk_variable.
Variables (committable : seq {poly F} -> bool) (commit_polys : seq {poly F} -> C).
Variables (D X : Type) (scheme_preprocess : scheme F C -> T -> D) (scheme_setup : T -> D -> X * T).
Notation preprocess := (placeholder_preprocess omega tr_start absorb absorb_hash iteration committable commit_polys scheme_preprocess).
Notation commit := (placeholder_commit omega tr_start challenge absorb absorb_hash iteration committable commit_polys scheme_setup).
Hypothesis iterationP : forall l, perm_eq (iteration l) l.


Section Main.
Variables (cs : constraint_system F) (public : plonk_public_table F) (d : table_description) (chunks : nat) (delta : F) (hash : H)
  (pp : preprocessed_data F C H D) (s : scheme F C) (witnesses : seq {poly F}).
Hypotheses (hfit : fits_description d public witnesses) (hpre : preprocess cs public d (fresh F C) chunks delta hash = Some (pp, s)).
Notation cd := (pp_common pp).
Notation copy := (size (cs_copy_constraints cs) != 0%N).
Notation lookup := (size (cs_lookup_gates cs) != 0%N).
Notation n := (size (cd_permuted_columns cd)).
Notation points y := (opening_points omega y copy lookup d n (cd_permutation_parts cd) (cd_columns_rotations cd)).

Lemma preprocessed_sizes :
  [/\ size (pp_identity_polynomials pp) = n, size (pp_permutation_polynomials pp) = n, size (pp_public_inputs pp) = td_public_input d,
      size (pp_constants pp) = td_constant d & size (pp_selectors pp) = td_selector d].
Proof.
have [perm [[[_ _] [hid hsi]] [_ [hpu hco hse]] _ _ _]] := preprocessP hpre.
case/and4P: hfit => _ /eqP <- /eqP <- /eqP <-; split; last 3 first.
- exact: omapM_size hpu.
- exact: omapM_size hco.
- exact: omapM_size hse.
- by rewrite hid size_map size_iota.
by rewrite (omapM_size hsi).
Qed.
Lemma size_fixed_batch : size (fixed_batch pp) = (2 * n + 2 + (td_constant d + td_selector d))%N.
Proof. by have [h1 h2 h3 h4 h5] := preprocessed_sizes; rewrite /fixed_batch !size_cat h1 h2 h4 h5 /=; slia. Qed.
Lemma size_variable_batch : size (variable_batch pp witnesses) = (td_witness d + td_public_input d)%N.
Proof. by have [_ _ h3 _ _] := preprocessed_sizes; case/and4P: hfit => /eqP hw _ _ _; rewrite size_cat hw h3. Qed.
Lemma size_rotations : size (cd_columns_rotations cd) = table_width d.
Proof. by have [perm [_ _ [_ [_ _ hr _]] _ _]] := preprocessP hpre; have [] := columns_rotationsP hr. Qed.
Lemma no_permuted : ~~ copy -> n = 0%N /\ cd_permutation_parts cd = 0%N.
Proof.
rewrite negbK => /eqP/size0nil hc; have [perm [[[_ hgi] _] _ [_ [hpa _ _ _]] _ _]] := preprocessP hpre.
have hn : n = 0%N.
  by rewrite (omapM_size hgi) (perm_size (iterationP _)) hc.
by split=> //; move: hpa; rewrite hn /= => -[<-].
Qed.

Notation run := (prover_run omega tr_start challenge absorb absorb_hash iteration committable commit_polys scheme_setup pp witnesses d cs).
Notation batches := (run_batches pp witnesses cs).
Lemma run_permutation_size r : run = Some r -> size (r_perm_batch r) = cd_permutation_parts cd /\
  (copy -> (0 < cd_permutation_parts cd)%N) /\ (lookup -> (0 < size (r_lookup_batch r))%N).
Proof.
case/ogP=> _ /olP[[[Fp bp] tr2] hp] /olP[[[[Fl so] bl] tr3] hl] /ogP[_] /olP[[Fg tr4] hg] /olP[[ch tr5] hq] /ogP[_] [<-] /=.
split; last split.
- move: hp; rewrite /run_permutation; case: ifP => [_|/negbT hc]; last by case=> _ <- _; have [_ ->] := no_permuted hc.
  by case/olP=> gi _ /olP[cols _] /perm_prove_sizes[_ -> _].
- move=> hc; move: hp; rewrite /run_permutation hc; case/olP=> gi _ /olP[cols _] /perm_prove_sizes[_ _ /=].
  by rewrite lt0n.
by move=> hlk; move: hl; rewrite /run_lookup hlk; case/olP=> res _ /ogP[_] [_ _ <- _].
Qed.

Lemma calls_in_range r y calls (m : nat -> option nat) : run = Some r -> m =1 (fun k => omap size (batches r k)) ->
  evaluation_calls omega cd cs d (2 * n + 2) (td_selector d) y = Some calls -> all (call_in m) calls.
Proof.
move=> hr hm /evaluation_callsE->; have [h1 [h2 h3]] := run_permutation_size hr.
have hin k i x : call_in m (k, Some i, x) = (i < odflt 0%N (omap size (batches r k)))%N.
  by rewrite /call_in /= hm; case: (batches r k).
have hall k x : call_in m (k, None, x) = isSome (batches r k) by rewrite /call_in /= hm andbT; case: (batches r k).
have hv i : (i < td_witness d + td_public_input d)%N -> forall rs, all (call_in m) (rotation_calls omega y VARIABLE_VALUES_BATCH i rs).
  by move=> hi rs; apply/allP=> c /mapP[x _ ->]; rewrite hin /= size_variable_batch.
have hf i : (i < 2 * n + 2 + (td_constant d + td_selector d))%N -> forall rs, all (call_in m) (rotation_calls omega y FIXED_VALUES_BATCH i rs).
  by move=> hi rs; apply/allP=> c /mapP[x _ ->]; rewrite hin /= size_fixed_batch.
rewrite !all_cat; apply/and5P; split.
- by apply/allP=> c /flattenP[l /mapP[i]]; rewrite mem_iota => hi ->; apply/allP; apply: hv.
- by case: ifP => //; rewrite /= hall andbT /batches /= orbC => ->.
- by case: ifP => //= hc; rewrite hin /batches /= hc /= size_cat h1 andbT addn_gt0 h2.
- case: ifP => //= hl; rewrite hin !hall /batches /= hl orbT /= size_cat h1 andbT.
  by rewrite -[X in (X < _)%N]addn0 ltn_add2l h3.
- rewrite /= hall /=; apply/and3P; split.
  + apply/allP=> c /mapP[i]; rewrite mem_iota => hi ->; rewrite hin /= size_fixed_batch; slia.
  + by apply/and3P; split=> //; rewrite hin /= size_fixed_batch; slia.
  by apply/allP=> c /flattenP[l /mapP[i]]; rewrite mem_iota => hi ->; apply/allP; apply: hf; slia.
Qed.

(** The points that the calls register, by batch and polynomial. *)
Lemma points_of_calls r y calls k i : run = Some r -> evaluation_calls omega cd cs d (2 * n + 2) (td_selector d) y = Some calls ->
  (i < odflt 0%N (omap size (batches r k)))%N -> call_points calls k i = points y k i.
Proof.
move=> hr hc hi; rewrite (calls_expected hc) ?addn2 //.
have hd : cd_desc cd = d by have [perm [_ _ [[-> _ _ _ _] _] _ _]] := preprocessP hpre.
rewrite /expected_points /opening_points /column_points hd; move: k hi => [|[|[|[|[|k]]]]] /=; rewrite /batches /=.
- by rewrite size_fixed_batch !addn2 !subn2 /= => ->.
- by rewrite size_variable_batch => ->.
- by rewrite orbC; case: (_ || _).
- by [].
- by case: (lookup).
by [].
Qed.

Lemma register r y s1 (m : nat -> option nat) : run = Some r -> sized s1 m -> m =1 (fun k => omap size (batches r k)) ->
  exists2 s2, generate_evaluation_points omega cd cs d (2 * n + 2) (td_selector d) y s1 = Some s2 &
    [/\ sc_commitments s2 = sc_commitments s1, ev_z (sc_ev s2) = [::], ev_polys (sc_ev s2) = ev_polys (sc_ev s1),
        sorted ltn (om_keys (ev_points (sc_ev s2))) &
        forall k, om_get (ev_points (sc_ev s2)) k = omap (fun b => [seq points y k i | i <- iota 0 (size b)]) (batches r k)].
Proof.
move=> hr hs hm; have [|calls hc] := @evaluation_calls_ok F omega C H D cd cs d (2 * n + 2) (td_selector d) y.
  by rewrite size_rotations /table_width !addnA.
have [ev hev [e1 e2 e3 e4 e5]] := sized_points hs (calls_in_range hr hm hc).
rewrite /generate_evaluation_points hc /= hev /=; eexists; first by []; split=> //= k.
rewrite e5 hm; case e : (batches r k) => [b|] //=; congr Some; apply/eq_in_map => i; rewrite mem_iota => hi.
by apply: points_of_calls hr hc _; rewrite e.
Qed.

Variables (st : prover_state F T C X) (z : eval_storage F) (y : F).
Hypotheses (hst : commit pp witnesses d cs s = Some st)
  (hz : forall k, k != FIXED_VALUES_BATCH -> z_size z k = omap size (om_get (ev_polys (sc_ev (ps_scheme st))) k)).

Lemma committed_run : exists2 r, run = Some r & holds commit_polys (ps_scheme st) (batches r) (fun k => isSome (batches r k)).
Proof.
have [perm [_ _ _ _ hh]] := preprocessP hpre.
have := @commitP F omega T tr_start challenge C H absorb absorb_hash iteration committable commit_polys D X scheme_setup pp witnesses d cs s hh.
by case: (prover_run _ _ _ _ _ _ _ _ _ _ _ _ _) => [r|]; [case=> st'; rewrite hst => -[<-] [_ _ _ _ h]; exists r|rewrite hst].
Qed.

Lemma same_points : exists sp sv,
  [/\ prover_evaluation_points omega pp cs d y (ps_scheme st) = Some sp,
      obnd (verifier_batch_sizes cs z s) (verifier_evaluation_points omega cd cs d y) = Some sv,
      ev_points (sc_ev sv) = ev_points (sc_ev sp) &
      forall k, om_get (ev_points (sc_ev sp)) k =
        omap (fun batch => [seq points y k i | i <- iota 0 (size batch)]) (om_get (ev_polys (sc_ev (ps_scheme st))) k)].
Proof.
have [r hr hh] := committed_run; have [p1 p2 p3 p4 p5] := preprocessed_sizes.
have hp := h_polys hh; have hs1 := holds_sized hh.
have [|sp hsp [_ _ _ hso hpt]] := register y hr hs1; first by move=> k /=; case: (batches r k).
have [perm [_ _ _ _ h0]] := preprocessP hpre.
have hs0 : sized s (fun k => if k == FIXED_VALUES_BATCH then Some (size (fixed_batch pp)) else None).
  by apply: sized_ext (holds_sized h0) _ => k; rewrite /only; case: eqP.
have [sv hsv hvz] : exists2 sv, verifier_batch_sizes cs z s = Some sv & sized sv (fun k => omap size (batches r k)).
  rewrite /verifier_batch_sizes !hz // !hp /batches /= orbC.
  have h1 := sized_set (k := VARIABLE_VALUES_BATCH) (size (variable_batch pp witnesses)) hs0 erefl.
  have h2 k m := sized_set (k := k) m h1; have h23 k m k' m' e := sized_set (k := k') m' (h2 k m e).
  have h234 k m k' m' k'' m'' e e' := sized_set (k := k'') m'' (h23 k m k' m' e e').
  case hc : (copy); case hl : (lookup) => /=; eexists; try by [].
  - apply: sized_ext (h234 PERMUTATION_BATCH _ QUOTIENT_BATCH _ LOOKUP_BATCH _ erefl erefl erefl) _ => k.
    by rewrite /upd; move: k => [|[|[|[|[|k]]]]].
  - apply: sized_ext (h23 PERMUTATION_BATCH _ QUOTIENT_BATCH _ erefl erefl) _ => k.
    by rewrite /upd; move: k => [|[|[|[|[|k]]]]].
  - apply: sized_ext (h234 PERMUTATION_BATCH _ QUOTIENT_BATCH _ LOOKUP_BATCH _ erefl erefl erefl) _ => k.
    by rewrite /upd; move: k => [|[|[|[|[|k]]]]].
  apply: sized_ext (h2 QUOTIENT_BATCH _ erefl) _ => k.
  by rewrite /upd; move: k => [|[|[|[|[|k]]]]].
have [//|sv' hsv' [_ _ _ hso' hpt']] := register y hr hvz.
exists sp, sv'; split.
- by rewrite /prover_evaluation_points p1 p2 p5 addnn -mul2n.
- by rewrite hsv /= /verifier_evaluation_points mulnC.
- by apply: om_ext => // k; rewrite hpt hpt'.
by move=> k; rewrite hpt hp.
Qed.
End Main.
End C32.
