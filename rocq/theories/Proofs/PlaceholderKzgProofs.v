(** Placeholder with KZG. *)
From Coq Require Import NArith.
From mathcomp Require Import all_ssreflect all_algebra.
From Verif.Model Require Import Base OrderedMap HashMap Domain Transcript Expression PlonkVariable PlonkTable CycleRepresentation PolysEvaluator Kzg
  PermutationArgument GatesArgument LookupArgument Quotient Placeholder PlaceholderKzg.
From Verif.Spec Require Import GroupSpec ExprSpec PlaceholderSpec CircuitSpec.
From Verif.Proofs Require Import NatTac DomainProofs KzgProofs KzgBatchProofs PermProofs ExprProofs PermArgProofs GatesProofs LookupProofs LookupSortProofs
  QuotientProofs EvaluatorProofs PlaceholderProofs PlaceholderState PlaceholderRun PlaceholderPoints PlaceholderReads PlaceholderHonest
  PlaceholderDegrees PlaceholderComplete.
From Verif.Props Require Import C21_CopyCycles C22_PermutationCompleteness C26_LookupCompleteness C27_LookupAgreement C28_LookupParts
  C29_GatesArgument C30_QuotientSplitting.
Set Implicit Arguments.
Unset Strict Implicit.
Unset Printing Implicit Defensive.
Import GRing.Theory.
Local Open Scope ring_scope.

Lemma split_size_neq0 m i l g c : (1 < m)%N -> split_polynomial_size m i l g c != 0%N.
Proof.
move=> m1; rewrite /split_polynomial_size; set x := maxn (maxn _ _) _; cbv zeta.
have x0 : (0 < x)%N by rewrite /x leq_max; apply/orP; right; rewrite muln_gt0 addn1 /= subn_gt0.
have q0 : (if (x %% m)%N != 0%N then (x %/ m + 1)%N else (x %/ m)%N) != 0%N.
  case: (eqVneq (x %% m)%N 0%N) => [e|_] /=; last by rewrite addn1.
  by rewrite -lt0n divn_gt0 ?(ltnW m1) // dvdn_leq // /dvdn e.
by case: (boolP (c != 0%N)) => //= c0; case: (ltnP c _).
Qed.

(** ** The points that Placeholder opens *)
Section Points.
Variables (F : fieldType) (omega y : F) (copy lookup : bool) (d : table_description) (n parts : nat) (rots : seq (seq int)).
Notation rows := (td_rows d).
Notation usable := (td_usable_rows d).
Notation points := (opening_points omega y copy lookup d n parts rots).
(** The exponents of all the points. *)
Definition exponents : seq int := [:: 0; 1] ++ (if lookup then [:: Posz usable] else [::]) ++ flatten rots.
Hypotheses (prim : rows.-primitive_root omega) (y0 : y != 0) (r1 : (1 < rows)%N) (hparts : copy -> (0 < parts)%N)
  (hu : lookup -> (1 < usable < rows)%N) (hrots : forall i, uniq [seq omega ^ r | r <- nth [::] rots i]).
Let o0 : omega != 0.
Proof. exact: omega_neq0 prim. Qed.
Let pow_inj i j : (i < rows)%N -> (j < rows)%N -> (omega ^+ i == omega ^+ j) = (i == j).
Proof. by move=> hi hj; rewrite (eq_prim_root_expr prim) !modn_small. Qed.
Lemma map_mul_uniq (s : seq F) : uniq [seq y * x | x <- s] = uniq s.
Proof. by apply: map_inj_uniq; exact: mulfI. Qed.

Lemma points_uniq k i : (PERMUTATION_BATCH < k)%N -> k != QUOTIENT_BATCH -> lookup -> uniq (points k i).
Proof.
case: k => [|[|[|[|k]]]] // _ _ /hu /andP[u1 u2]; rewrite /opening_points.
have -> : [:: y; y * omega; y * omega ^+ usable] = [seq y * x | x <- [seq omega ^+ j | j <- [:: 0; 1; usable]%N]] by rewrite /= expr0 expr1 mulr1.
rewrite map_mul_uniq map_inj_in_uniq; last first.
  move=> a b ha hb /eqP; rewrite pow_inj => [/eqP//||]; first by move: ha; rewrite !inE => /or3P[] /eqP->; slia.
  by move: hb; rewrite !inE => /or3P[] /eqP->; slia.
by rewrite /= !inE; move: u1; case: usable => [|[|m]].
Qed.
Lemma two_uniq : uniq [:: y; y * omega].
Proof.
rewrite /= inE andbT; apply/eqP => /esym/eqP; rewrite -{2}[y]mulr1 (inj_eq (mulfI y0)) -(expr1 omega) -(expr0 omega) pow_inj //; exact: ltnW.
Qed.
Lemma points_uniq' k i : (k <= QUOTIENT_BATCH)%N -> uniq (points k i).
Proof.
have hcol j : uniq (column_points omega y rots j) by rewrite /column_points (map_comp (fun x => y * x) (fun r => omega ^ r)) map_mul_uniq; exact: hrots.
have two := two_uniq.
case: k => [|[|[|[|k]]]] // _; rewrite /opening_points //.
  by case: (ltnP i (2 * n)%N) => // _; case: (ltnP i (2 * n + 2)%N).
case: (boolP (copy && (i == 0%N))) => [/andP[hc /eqP->]|_]; last by case: (lookup && _).
case: eqP => [h|_]; last by rewrite andbF.
by have := hparts hc; rewrite -h.
Qed.
Lemma points_exponents k i x : (k <= QUOTIENT_BATCH)%N || lookup -> x \in points k i -> x \in [seq y * omega ^ r | r <- exponents].
Proof.
have h0 : y \in [seq y * omega ^ r | r <- exponents] by rewrite /= expr0z mulr1 mem_head.
have h1 : y * omega \in [seq y * omega ^ r | r <- exponents] by rewrite /= expr1z !inE eqxx orbT.
have hcol j : x \in column_points omega y rots j -> x \in [seq y * omega ^ r | r <- exponents].
  case/mapP=> r hr ->; apply/mapP; exists r => //; rewrite !mem_cat; apply/orP; right; apply/orP; right.
  apply/flattenP; exists (nth [::] rots j) => //; apply: mem_nth; rewrite ltnNge; apply/negP => h; by rewrite nth_default in hr.
case: k => [|[|[|[|k]]]] hk.
- rewrite /opening_points; case: ltnP => _; first by rewrite inE => /eqP->.
  by case: ltnP => _; [rewrite !inE => /orP[] /eqP->|exact: hcol].
- exact: hcol.
- rewrite /opening_points inE => /orP[/eqP->//|]; rewrite mem_cat => /orP[]; case: ifP => //= _; rewrite inE => /eqP->; exact: h1.
- by rewrite /opening_points inE => /eqP->.
have h2 : lookup -> y * omega ^+ usable \in [seq y * omega ^ r | r <- exponents].
  by move=> hl; apply/mapP; exists (Posz usable) => //; rewrite /exponents hl !inE eqxx !orbT.
move: hk => /= hl; rewrite /opening_points inE => /orP[/eqP->//|]; rewrite inE => /orP[/eqP->//|]; rewrite inE => /eqP->; exact: h2.
Qed.
Let size_XnC c : size ('X^rows - c%:P : {poly F}) = rows.+1.
Proof. by rewrite size_addl size_polyXn // size_opp ltnS (leq_trans (size_polyC_leq1 c)) // ltnW. Qed.
Lemma coset_size (s : seq F) : uniq s -> {subset s <= [seq y * omega ^ r | r <- exponents]} -> (size s <= rows)%N.
Proof.
move=> hs hsub; have hp : ('X^rows - (y ^+ rows)%:P : {poly F}) != 0 by rewrite -size_poly_eq0 size_XnC.
have := max_poly_roots hp _ hs; rewrite size_XnC ltnS.
apply; apply/allP => x /hsub/mapP[r _ ->]; rewrite rootE !hornerE hornerXn exprMn subr_eq0.
by rewrite (exprnP (omega ^ r)) exprzAC -exprnP (prim_expr_order prim) exp1rz mulr1.
Qed.
End Points.

Section Kzg.
Variables (F : fieldType) (G1 G2 GT : lmodType F) (e : G1 -> G2 -> GT) (g1 : G1) (g2 : G2).
Hypothesis be : bilinear e.
Variables (B : Type) (hash : seq B -> seq B) (dtf : seq B -> F).
Variables (enc_g1 : G1 -> seq B) (dec_g1 : seq B -> option G1) (enc_f : F -> seq B) (lenB : nat).
Hypotheses (dec_enc : forall x, dec_g1 (enc_g1 x) = Some x) (enc_size : forall x, size (enc_g1 x) = lenB).
Variables (kd kt : nat) (alpha : F).
Notation params := (bkzg_setup g1 g2 kd kt alpha).
Notation committable := (kzg_committable params).
Notation commit_polys := (kzg_commit_polys params enc_g1).

Lemma kzg_committableE ps : committable ps = all (fun p : {poly F} => size p <= kd)%N ps.
Proof.
rewrite /kzg_committable; elim: ps => //= p ps <-; rewrite {1}/commit_with /= size_powers_of; case: leqP => //= _.
by case: (omapM _ ps).
Qed.
Lemma kzg_commitE ps : committable ps -> commit_polys ps = flatten [seq enc_g1 (p.[alpha] *: g1) | p : {poly F} <- ps].
Proof.
rewrite kzg_committableE => /allP h; rewrite /kzg_commit_polys /=.
rewrite (omapM_some (g := fun p : {poly F} => p.[alpha] *: g1)); last by move=> p /h hp; exact: commit_withE.
by rewrite /= -map_comp.
Qed.

Section State.
Variables (s : scheme F (seq B)).
Hypotheses (hz : ev_z (sc_ev s) = [::]) (hsp : sorted ltn (om_keys (ev_polys (sc_ev s)))) (hsq : sorted ltn (om_keys (ev_points (sc_ev s))))
  (hsc : sorted ltn (om_keys (sc_commitments s)))
  (hpts : forall k, omap size (om_get (ev_points (sc_ev s)) k) = omap size (om_get (ev_polys (sc_ev s)) k))
  (hcm : forall k, om_get (sc_commitments s) k = omap commit_polys (om_get (ev_polys (sc_ev s)) k))
  (hco : forall k ps, om_get (ev_polys (sc_ev s)) k = Some ps -> committable ps)
  (huniq : forall k i, uniq (nth [::] (odflt [::] (om_get (ev_points (sc_ev s)) k)) i))
  (hsize : forall k i, (size (nth [::] (odflt [::] (om_get (ev_points (sc_ev s)) k)) i) <= kd)%N).
Notation polys := (ev_polys (sc_ev s)).
Notation points := (ev_points (sc_ev s)).
Notation cms := (sc_commitments s).

Let kk : om_keys points = om_keys polys.
Proof. by apply: keys_eq => // k; rewrite -!om_get_mem; move: (hpts k); case: (om_get points k); case: (om_get polys k). Qed.
Let kc : om_keys cms = om_keys polys.
Proof. by apply: keys_eq => // k; rewrite -!om_get_mem hcm; case: (om_get polys k). Qed.
Let ss k : size (odflt [::] (om_get points k)) = nP polys k.
Proof. by rewrite /nP; move: (hpts k); case: (om_get points k) => [a|]; case: (om_get polys k) => [b|] //= -[]. Qed.
Let hc k ps : om_get polys k = Some ps -> om_get cms k = Some (flatten [seq enc_g1 (p.[alpha] *: g1) | p : {poly F} <- ps]).
Proof. by move=> h; rewrite hcm h /= kzg_commitE //; exact: hco h. Qed.
Let hP ki : ki \in idxs polys -> (size (Pq polys ki) <= kd)%N.
Proof.
case: ki => k i; rewrite idxsP => /andP[_]; rewrite /nP /Pq /=; case ek : (om_get polys k) => [ps|] //= hi.
by have := hco ek; rewrite kzg_committableE => /allP; apply; exact: mem_nth.
Qed.
Let hS ki : ki \in idxs polys -> uniq (Sq points ki) /\ (size (Sq points ki) <= kd)%N.
Proof. by move=> _; split; [exact: huniq|exact: hsize]. Qed.

Lemma zvals z : (forall k, om_get z k = if k \in om_keys polys then Some (zval polys points k) else om_get (ev_z (sc_ev s)) k) ->
  forall k, om_get z k = omap (fun ps : seq {poly F} =>
    [seq [seq (nth 0 ps i).[x] | x <- nth [::] (odflt [::] (om_get points k)) i] | i <- iota 0 (size ps)]) (om_get polys k).
Proof.
move=> h k; rewrite h hz -om_get_mem /zval /nP /Pq /Sq /=; case: (om_get polys k) => //=.
Qed.

Lemma v1_opens tr : (size (kzg_merged_points (sc_ev s)) <= kt)%N ->
  opens commit_polys (kzg_v1_open params hash dtf enc_f) (kzg_v1_check e params hash dtf dec_g1 enc_f) tt s tr.
Proof.
move=> hT.
have hh zv pv lv cv := @kzg_v1_honest F G1 G2 GT e g1 g2 be B hash dtf enc_g1 dec_g1 enc_f lenB dec_enc enc_size kd kt alpha polys points cms hsp kk kc ss hc hP hS hT
  (ev_z (sc_ev s)) (ev_locked (sc_ev s)) zv pv lv cv tr.
have [z [pi [tr1 [e1 e2 _]]]] := hh [::] [::] [::] [::].
have es : kzg_state params s = KzgScheme params (Evaluator (ev_z (sc_ev s)) polys (ev_locked (sc_ev s)) points) cms.
  by rewrite /kzg_state; case: (sc_ev s).
exists z, pi, tr1; split.
- by rewrite /kzg_v1_open es.
- exact: zvals e2.
move=> sv cm ep hsm hcm'; rewrite /kzg_v1_check.
have -> : cm = cms by apply: om_ext => // k; rewrite hcm' hcm.
have -> : kzg_state params sv = KzgScheme params (Evaluator (ev_z (sc_ev sv)) (ev_polys (sc_ev sv)) (ev_locked (sc_ev sv)) points) (sc_commitments sv).
  by rewrite /kzg_state -ep; case: (sc_ev sv).
have [z' [pi' [tr' [e1' _ e3']]]] := hh (ev_z (sc_ev sv)) (ev_polys (sc_ev sv)) (ev_locked (sc_ev sv)) (sc_commitments sv).
by exists tr'; move: e1'; rewrite e1 => -[-> -> _].
Qed.

Lemma v2_opens tr : kt = 1%N -> (forall k ps, om_get polys k = Some ps -> size ps != 0%N) ->
  opens commit_polys (kzg_v2_open params hash dtf enc_g1 enc_f) (kzg_v2_check e g1 g2 params hash dtf enc_g1 dec_g1 enc_f) tt s tr.
Proof.
move=> ekt hne; have hne' : {in om_keys polys, forall k, nP polys k != 0%N}.
  by move=> k; rewrite -om_get_mem /nP; case ek : (om_get polys k) => [ps|] //= _; exact: hne ek.
have hh zv pv lv cv := @kzg_v2_honest F G1 G2 GT e g1 g2 be B hash dtf enc_g1 dec_g1 enc_f lenB dec_enc enc_size kd alpha polys points cms hsp kk kc ss hc hP hS
  (ev_z (sc_ev s)) (ev_locked (sc_ev s)) zv pv lv cv tr hne'.
have [z [pi1 [pi2 [tr1 [e1 e2 _]]]]] := hh [::] [::] [::] [::].
have es sv : kzg_state params sv = KzgScheme (kzg_v2_create_params g1 g2 kd alpha) (Evaluator (ev_z (sc_ev sv)) (ev_polys (sc_ev sv)) (ev_locked (sc_ev sv)) (ev_points (sc_ev sv))) (sc_commitments sv).
  by rewrite /kzg_state /kzg_v2_create_params ekt; case: (sc_ev sv).
exists z, (pi1, pi2), (tr_absorb hash tr1 (enc_g1 pi2)); split.
- by rewrite /kzg_v2_open es e1.
- exact: zvals e2.
move=> sv cm ep hsm hcm'; rewrite /kzg_v2_check es ep.
have -> : cm = cms by apply: om_ext => // k; rewrite hcm' hcm.
have [z' [pi1' [pi2' [tr' [e1' _ e3']]]]] := hh (ev_z (sc_ev sv)) (ev_polys (sc_ev sv)) (ev_locked (sc_ev sv)) (sc_commitments sv).
by exists tr'; move: e1'; rewrite e1 => -[-> -> -> _].
Qed.
End State.

(** ** Placeholder with KZG *)
Section Placeholder.
Variables (omega : F) (tr_start : transcript B) (H : Type) (absorb_hash : transcript B -> H -> transcript B).
Variable iteration : seq plonk_variable -> seq plonk_variable.
Hypothesis iterationP : forall l, perm_eq (iteration l) l.
Notation absorb := (tr_absorb hash).
Notation challenge := (tr_challenge hash dtf).
Notation preprocess := (placeholder_preprocess omega tr_start absorb absorb_hash iteration committable commit_polys (@kzg_preprocess F B)).
Notation commit := (placeholder_commit omega tr_start challenge absorb absorb_hash iteration committable commit_polys (@kzg_setup_transcript B)).
Variables (cs : constraint_system F) (public : plonk_public_table F) (d : table_description) (chunks : nat) (delta : F) (vk : H)
  (pp : preprocessed_data F (seq B) H unit) (s : scheme F (seq B)) (witnesses : seq {poly F}).
Hypotheses (hfit : fits_description d public witnesses) (hpre : preprocess cs public d (fresh F (seq B)) chunks delta vk = Some (pp, s)).
Notation cd := (pp_common pp).
Notation copy := (size (cs_copy_constraints cs) != 0%N).
Notation lookup := (size (cs_lookup_gates cs) != 0%N).
Notation rows := (td_rows d).
Notation usable := (td_usable_rows d).
Notation batches := (run_batches pp witnesses cs).
Notation run := (prover_run omega tr_start challenge absorb absorb_hash iteration committable commit_polys (@kzg_setup_transcript B) pp witnesses d cs).
Hypotheses (prim : rows.-primitive_root omega) (r1 : (1 < rows <= kd)%N) (hu : lookup -> (1 < usable < rows)%N)
  (hrots : forall i, uniq [seq omega ^ r | r <- nth [::] (cd_columns_rotations cd) i]).

Lemma batches_nonempty r k b : (0 < td_witness d + td_public_input d)%N -> run = Some r -> batches r k = Some b -> size b != 0%N.
Proof.
move=> hv hr; have [h1 [h2 h3]] := run_permutation_size iterationP hpre hr.
have [_ _ p3 _ _] := preprocessed_sizes hfit hpre.
have hfx := size_fixed_batch hfit hpre; have hvb := size_variable_batch hfit hpre.
rewrite /run_batches; case: (k == FIXED_VALUES_BATCH); first by move=> [<-]; rewrite hfx -lt0n addn_gt0 addn_gt0 orbT.
case: (k == VARIABLE_VALUES_BATCH); first by move=> [<-]; rewrite hvb -lt0n.
case: (k == PERMUTATION_BATCH).
  case: (boolP copy) => [hc|_] /=; first by move=> [<-]; rewrite size_cat h1 -lt0n addn_gt0 (h2 hc).
  by case: (boolP lookup) => // hl [<-]; rewrite size_cat -lt0n addn_gt0 (h3 hl) orbT.
move: hr => /ogP[_] /olP[[[Fp bp] tr2] hp] /olP[[[[Fl so] bl] tr3] hl] /ogP[_] /olP[[Fg tr4] hg] /olP[[ch tr5] hq] /ogP[_] [<-] /=.
case: (k == QUOTIENT_BATCH).
  move=> [<-]; move: hq; rewrite /prover_quotient; case: (draw challenge 8 _) => al tr6; cbv zeta => /olP[ts hts] [<- _].
  move: hts; rewrite /quotient_chunks; cbv zeta; case: ifP => // hle [<-]; rewrite size_cat size_map size_nseq subnKC //.
  case: (preprocessP hpre) => _ [_ _ [[-> -> _ _ _] _] _ _].
  apply: split_size_neq0; by case/andP: r1.
case: (k == LOOKUP_BATCH) => //; case: (boolP lookup) => // hlk [<-].
move: hl; rewrite /run_lookup hlk => /olP[res hres] /ogP[_] [_ <- _ _].
move: hres; rewrite /lookup_prove_eval; case: (challenge tr2) => th tr6; cbv zeta => /olP[lv _] /olP[li _] /olP[sv _].
case: (challenge (absorb _ _)) => be1 tr7; case: (challenge tr7) => ga tr8; case: (draw challenge _ tr8) => al tr9 /olP[vl _] /ogP[_] /olP[gs _] /olP[hs _] /olP[fp _] /ogP[hso].
by case: (draw challenge _ tr9) => a3 tr10 [<-].
Qed.

Lemma state_ok r st sp : run = Some r -> commit pp witnesses d cs s = Some st -> ps_challenge st != 0 ->
  prover_evaluation_points omega pp cs d (ps_challenge st) (ps_scheme st) = Some sp ->
  [/\ forall k, omap size (om_get (ev_points (sc_ev sp)) k) = omap size (om_get (ev_polys (sc_ev sp)) k),
      forall k, om_get (sc_commitments sp) k = omap commit_polys (om_get (ev_polys (sc_ev sp)) k),
      forall k ps, om_get (ev_polys (sc_ev sp)) k = Some ps -> committable ps,
      forall k i, uniq (nth [::] (odflt [::] (om_get (ev_points (sc_ev sp)) k)) i) /\
        (size (nth [::] (odflt [::] (om_get (ev_points (sc_ev sp)) k)) i) <= kd)%N &
      (size (kzg_merged_points (sc_ev sp)) <= size (undup [seq (omega ^ r)%R | r <- exponents lookup d (cd_columns_rotations cd)]))%N].
Proof.
move=> hr hst y0 hsp.
have [[hz ey] /andP[/andP[s1 s2] s3] hpol hpts hcm] := honest_scheme iterationP hfit hpre hr hst hsp.
have [h1 [h2 h3]] := run_permutation_size iterationP hpre hr.
rewrite ey in y0.
have r1' : (1 < rows)%N by case/andP: r1.
have hpt k b i : batches r k = Some b ->
  uniq (opening_points omega (r_y r) copy lookup d (size (cd_permuted_columns cd)) (cd_permutation_parts cd) (cd_columns_rotations cd) k i) /\
  {subset opening_points omega (r_y r) copy lookup d (size (cd_permuted_columns cd)) (cd_permutation_parts cd) (cd_columns_rotations cd) k i <=
    [seq r_y r * omega ^ e | e <- exponents lookup d (cd_columns_rotations cd)]}.
  move=> hb; have [hk|hk] := leqP k QUOTIENT_BATCH.
    by split; [exact: points_uniq'|move=> x; apply: points_exponents; rewrite hk].
  have hl : lookup by move: hb; rewrite /run_batches; move: k hk => [|[|[|[|[|k]]]]] //= _; case: (lookup).
  split; first by apply: points_uniq => //; [exact: ltn_trans hk|by rewrite neq_ltn hk orbT].
  by move=> x; apply: points_exponents; rewrite hl orbT.
have hn k i : uniq (nth [::] (odflt [::] (om_get (ev_points (sc_ev sp)) k)) i) /\
  {subset nth [::] (odflt [::] (om_get (ev_points (sc_ev sp)) k)) i <= [seq r_y r * omega ^ e | e <- exponents lookup d (cd_columns_rotations cd)]}.
  rewrite hpts; case hb : (batches r k) => [b|] /=; last by rewrite nth_nil.
  have [hi|hi] := ltnP i (size b); last by rewrite nth_default // size_map size_iota.
  rewrite (nth_map 0%N) ?size_iota // nth_iota // add0n; exact: hpt hb.
split.
- by move=> k; rewrite hpts hpol; case: (batches r k) => //= b; rewrite size_map size_iota.
- by move=> k; rewrite hcm hpol.
- by move=> k ps; rewrite hpol; exact: (honest_committable hpre hr).
- move=> k i; have [u sub] := hn k i; split=> //; case/andP: r1 => _; apply: leq_trans; exact: coset_size sub.
have -> : size (undup [seq omega ^ e | e <- exponents lookup d (cd_columns_rotations cd)]) =
  size [seq r_y r * x | x <- undup [seq omega ^ e | e <- exponents lookup d (cd_columns_rotations cd)]] by rewrite size_map.
apply: uniq_leq_size; first by rewrite /kzg_merged_points /merge_points undup_uniq.
move=> x; rewrite /kzg_merged_points /merge_points mem_undup => /flattenP[l /flattenP[ls /mapP[kl hin ->] hl] hx].
have : x \in [seq r_y r * omega ^ e | e <- exponents lookup d (cd_columns_rotations cd)].
  have hg : om_get (ev_points (sc_ev sp)) kl.1 = Some kl.2 := om_get_in s2 hin.
  have [_ sub] := hn kl.1 (index l kl.2); move: sub; rewrite hg /= nth_index // => sub; exact: sub.
case/mapP=> e0 he ->; apply/mapP; exists (omega ^ e0) => //; rewrite mem_undup; apply/mapP; by exists e0.
Qed.
End Placeholder.

Section Complete.
Variables (omega : F) (tr_start : transcript B) (H : Type) (absorb_hash : transcript B -> H -> transcript B).
Variable iteration : seq plonk_variable -> seq plonk_variable.
Hypothesis iterationP : forall l, perm_eq (iteration l) l.
Notation absorb := (tr_absorb hash).
Notation challenge := (tr_challenge hash dtf).
Notation preprocess := (placeholder_preprocess omega tr_start absorb absorb_hash iteration committable commit_polys (@kzg_preprocess F B)).
Notation commit := (placeholder_commit omega tr_start challenge absorb absorb_hash iteration committable commit_polys (@kzg_setup_transcript B)).
Variables (cs : constraint_system F) (t : plonk_table F) (d : table_description) (chunks : nat) (delta : F) (vk : H)
  (pp : preprocessed_data F (seq B) H unit) (s : scheme F (seq B)) (witnesses : seq {poly F}).
Notation cd := (pp_common pp).
Notation copy := (size (cs_copy_constraints cs) != 0%N).
Notation lookup := (size (cs_lookup_gates cs) != 0%N).
Notation rows := (td_rows d).
Notation usable := (td_usable_rows d).
Notation start := (start tr_start absorb absorb_hash commit_polys (@kzg_setup_transcript B) pp witnesses).
Hypotheses (prim : rows.-primitive_root omega) (hshape : table_shape d t) (hok : circuit_ok cs d chunks)
  (hw : omapM (column_polynomial_dfs omega rows) (pr_witnesses (pt_private t)) = Some witnesses)
  (hpre : preprocess cs (pt_public t) d (fresh F (seq B)) chunks delta vk = Some (pp, s))
  (hkd : (rows <= kd)%N) (hu : lookup -> (1 < usable)%N)
  (hrots : forall i, uniq [seq omega ^ r | r <- nth [::] (cd_columns_rotations cd) i])
  (hsat : satisfies cs d t) (hlc : lookup_columns_ok cs d t)
  (hch : copy -> copy_challenges_ok omega cs d t (cd_permuted_columns cd) delta (challenge start).1 (challenge (challenge start).2).1).
Let tr := permutation_transcript challenge cs pp start.
Hypothesis hsep : lookup -> separates (cs_lookup_tables cs) t usable (challenge tr).1.
Let hcomm ps : all (fun p : {poly F} => size p <= rows)%N ps -> committable ps.
Proof. by rewrite kzg_committableE; apply: sub_all => p hp; exact: leq_trans hp hkd. Qed.
Let hrows : (1 < rows <= kd)%N.
Proof. by case: hok => _ /andP[/andP[h1 h2] _] _ _ _; rewrite hkd andbT; exact: leq_ltn_trans h1 h2. Qed.
Let hu' : lookup -> (1 < usable < rows)%N.
Proof. by case: hok => _ /andP[/andP[_ h2] _] _ _ _ /hu ->. Qed.
Let hfit := table_fits hshape hw.

(** The run of the honest prover. *)
Lemma kzg_complete (P : Type) (open : unit -> scheme F (seq B) -> transcript B -> option ((eval_storage F * P) * transcript B))
  (check : unit -> scheme F (seq B) -> eval_storage F * P -> omapT (seq B) -> transcript B -> option (bool * transcript B)) :
  (forall st sp r, prover_run omega tr_start challenge absorb absorb_hash iteration committable commit_polys (@kzg_setup_transcript B) pp witnesses d cs = Some r ->
     commit pp witnesses d cs s = Some st -> ps_challenge st != 0 ->
     prover_evaluation_points omega pp cs d (ps_challenge st) (ps_scheme st) = Some sp -> opens commit_polys open check tt sp (ps_transcript st)) ->
  exists sorted, let tr2 := absorb (challenge tr).2 (commit_polys sorted) in
    (lookup -> nondegenerate (cs_lookup_tables cs) t usable (challenge tr).1 (challenge tr2).1 (challenge (challenge tr2).2).1) ->
    exists2 st, commit pp witnesses d cs s = Some st & ps_challenge st != 0 ->
      exists2 pf, placeholder_prove omega tr_start challenge absorb absorb_hash iteration committable commit_polys (@kzg_setup_transcript B) open pp witnesses d cs s = Some pf &
        placeholder_verify omega tr_start challenge absorb absorb_hash (@kzg_setup_transcript B) check cd pf d cs s = Some true.
Proof.
move=> hop; have [sorted h] := proof_complete open check iterationP prim hshape hok hw hpre hcomm hsat hlc hch hsep.
exists sorted => tr2 hnd; have [st hst hpf] := h hnd; exists st => // y0; apply: hpf => sp hsp.
have [perm [_ _ _ _ hsc]] := preprocessP hpre.
have := commitP omega tr_start challenge absorb absorb_hash iteration committable (@kzg_setup_transcript B) witnesses d cs hsc.
case er : (prover_run _ _ _ _ _ _ _ _ _ _ _ _ _) => [r|]; last by rewrite hst.
by move=> _; case: (ps_data st); exact: (hop _ _ _ er hst y0 hsp).
Qed.
Notation done_with open check := (exists sorted, let tr2 := absorb (challenge tr).2 (commit_polys sorted) in
    (lookup -> nondegenerate (cs_lookup_tables cs) t usable (challenge tr).1 (challenge tr2).1 (challenge (challenge tr2).2).1) ->
    exists2 st, commit pp witnesses d cs s = Some st & ps_challenge st != 0 ->
      exists2 pf, placeholder_prove omega tr_start challenge absorb absorb_hash iteration committable commit_polys (@kzg_setup_transcript B) open pp witnesses d cs s = Some pf &
        placeholder_verify omega tr_start challenge absorb absorb_hash (@kzg_setup_transcript B) check cd pf d cs s = Some true).
Lemma kzg_v1_complete : (size (undup [seq (omega ^ r)%R | r <- exponents lookup d (cd_columns_rotations cd)]) <= kt)%N ->
  done_with (kzg_v1_open params hash dtf enc_f) (kzg_v1_check e params hash dtf dec_g1 enc_f).
Proof.
move=> hkt; apply: kzg_complete => st sp r hr hst y0 hsp.
have [[hz _] /andP[/andP[s1 s2] s3] _ _ _] := honest_scheme iterationP hfit hpre hr hst hsp.
have [h1 h2 h3 h4 h5] := state_ok iterationP hfit hpre prim hrows hu' hrots hr hst y0 hsp.
apply: v1_opens => //; [by move=> k i; have [] := h4 k i|by move=> k i; have [] := h4 k i|exact: leq_trans h5 hkt].
Qed.
Lemma kzg_v2_complete : kt = 1%N -> (0 < td_witness d + td_public_input d)%N ->
  done_with (kzg_v2_open params hash dtf enc_g1 enc_f) (kzg_v2_check e g1 g2 params hash dtf enc_g1 dec_g1 enc_f).
Proof.
move=> hkt hv; apply: kzg_complete => st sp r hr hst y0 hsp.
have [[hz _] /andP[/andP[s1 s2] s3] hpol _ _] := honest_scheme iterationP hfit hpre hr hst hsp.
have [h1 h2 h3 h4 h5] := state_ok iterationP hfit hpre prim hrows hu' hrots hr hst y0 hsp.
apply: v2_opens => //; [by move=> k i; have [] := h4 k i|by move=> k i; have [] := h4 k i|].
by move=> k ps; rewrite hpol; exact: (batches_nonempty iterationP hfit hpre hrows hv hr).
Qed.
End Complete.
End Kzg.
