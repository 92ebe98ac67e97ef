(** C55: Aggregation of Groth16 proofs: the aggregate of n proofs is accepted exactly when the random combination of their
    verification equations holds. *)
From mathcomp Require Import all_ssreflect all_algebra.
From Verif.Model Require Import Base KnowledgeCommitment Groth16 OrderedMap Aggregate.
From Verif.Spec Require Import GroupSpec AggregateSpec.
From Verif.Proofs Require Import NatTac KcProofs AggregateProofs AggregateTop.
From Verif.Props Require Import C05_R1csToQap C08_Groth16Complete.
Set Implicit Arguments.
Unset Strict Implicit.
Unset Printing Implicit Defensive.
Import GRing.Theory.
Local Open Scope ring_scope.

Section C55.
Variables (F : fieldType) (G1 G2 GT : lmodType F) (e : G1 -> G2 -> GT).
Notation item := (tr_item G1 G2 GT).
Notation proof := (g16_proof G1 G2).
Implicit Types (chal : seq item -> F) (p : agg_proof G1 G2 GT) (vk : agg_verification_key G1 G2) (inc : seq nat).

(** The challenge that combines the proofs: what the transcript returns after the commitments of the aggregated proof and the
    caller's bytes. *)
Definition batch_challenge chal p inc : F :=
  chal [:: TrTag _ _ _ tag_snarkpack; TrTag _ _ _ tag_random_r; TrGT _ _ (ap_com_ab p).1; TrGT _ _ (ap_com_ab p).2;
           TrGT _ _ (ap_com_c p).1; TrGT _ _ (ap_com_c p).2; TrBytes _ _ _ inc].

Definition triple (pr : proof) : G1 * G2 * G1 := (pr_A pr, pr_B pr, pr_C pr).
Definition zero_proof : proof := G16Proof 0 0 0.
Definition batch_of vk := batch_holds e (av_alpha_g1 vk) (av_ABC_first vk) (av_ABC_rest vk) (av_beta_g2 vk) (av_gamma_g2 vk)
  (av_delta_g2 vk).

(** For every reference string, every n = 2^k >= 2 proofs (valid or not), every non-empty list of inputs of the length of the
    key and every choice of the verifier's random coefficients: aggregation succeeds, the verifier is defined, and it
    accepts exactly when the equations of the proofs combined with the powers of the transcript's challenge hold. *)
Theorem C55_exact chal (g : G1) (h : G2) (N n : nat) (alpha beta : F) ps vs (proofs : seq proof) inc :
  bilinear e -> (forall s, chal s != 0 /\ chal s != 1) ->
  agg_specialize (agg_srs_make g h N alpha beta) n = Some (ps, vs) -> size proofs = n -> (1 < n)%N ->
  exists2 p, aggregate_proofs e chal ps inc proofs = Some p &
    forall vk (inputs : seq (seq F)) (ks : nat -> F),
      inputs != [::] -> all (fun pi => size pi == size (av_ABC_rest vk)) inputs ->
      exists2 b, verify_aggregate_proof e chal vs vk inputs p inc ks = Some b &
                 b <-> batch_of vk (batch_challenge chal p inc) inputs [seq triple pr | pr <- proofs].
Proof.
move=> eb chal01 hsp sz n1; have [p [hagg [hcab hcc] hip hac [[[[[res fr] ch] chi] tr2] [hg hds]]]] := honestP eb chal01 inc hsp sz n1.
exists p => // vk inputs ks hne hsz; rewrite (verifyE eb chal01 _ hsz hne) hg; cbn [obnd]; eexists; first by [].
move: hds; cbv zeta; set ds := check_defects _ _ _ _ _ _ _ => /andP[-> hds].
rewrite big1 => [|i _]; last first.
  have : (i < size ds)%N by exact: ltn_ord.
  by move/(all_nthP 0): hds => hds /hds/eqP->; rewrite scaler0.
rewrite add0r andTb /batch_defect hip hac -/(batch_challenge chal p inc) -[agg_r _ _ _]/(batch_challenge chal p inc).
set r := batch_challenge _ _ _.
have -> : e (\sum_(i < n) r ^+ i *: nth 0 (pC proofs) i) (av_delta_g2 vk)
  = \sum_(i < n) r ^+ i *: e (nth 0 (pC proofs) i) (av_delta_g2 vk).
  rewrite (big_morph (e ^~ (av_delta_g2 vk)) (fun a b => e_addl eb a b _) (B0l eb _)).
  by apply: eq_bigr => i _; rewrite (e_scalel eb).
rewrite -addrA -sumrB /batch_of /batch_holds size_map sz.
have -> : \sum_(i < n) r ^+ i *: proof_side e (av_delta_g2 vk) (nth (0, 0, 0) [seq triple pr | pr <- proofs] i)
  = - \sum_(i < n) (r ^+ i *: e (nth 0 (pC proofs) i) (av_delta_g2 vk) - r ^+ i *: e (nth 0 (pA proofs) i) (nth 0 (pB proofs) i)).
  rewrite -sumrN; apply: eq_bigr => i _; have hi : (i < size proofs)%N by rewrite sz.
  by rewrite /pA /pB /pC !(nth_map zero_proof) //= /proof_side /= opprB -scalerBr.
split=> [|h1].
- by rewrite addr_eq0 => /eqP ->.
- by rewrite -h1 addNr.
Qed.

(** A proof accepted by the Groth16 verifier, in terms of its equation. *)
Lemma strongE vk input (pr : proof) : g16_verify_strong e (agg_to_g16_key e vk) input pr = Some true <->
  size input = size (av_ABC_rest vk) /\
  proof_side e (av_delta_g2 vk) (triple pr)
  = input_side e (av_alpha_g1 vk) (av_ABC_first vk) (av_ABC_rest vk) (av_beta_g2 vk) (av_gamma_g2 vk) input.
Proof.
rewrite /g16_verify_strong /g16_verify_strong_online /g16_verify_weak_online.
cbn [process_verification_key agg_to_g16_key pvk_ABC_rest pvk_ABC_first pvk_gamma_g2 pvk_delta_g2 pvk_alpha_g1_beta_g2
  vk_alpha_g1_beta_g2 vk_gamma_g2 vk_delta_g2 vk_gamma_ABC_first vk_gamma_ABC_rest].
case: (size (av_ABC_rest vk) =P size input) => [hs|hs] /=; last by split=> // -[/esym].
rewrite hs leqnn /accumulate_chunk -hs take_size (@multiexpE _ _ _ _ (size (av_ABC_rest vk))) ?leqnn //.
rewrite /proof_side /input_side /=; set acc := _ + \sum_(_ < _) _.
case: eqP => [h|h]; split=> //.
- by move=> _; split=> //; rewrite -h opprD addrA addrAC subrK.
- case=> _ h'; case: h; rewrite opprD addrA [LHS]addrAC h'.
  by rewrite addrK.
Qed.

(** If every proof is accepted by the Groth16 verifier for its input, the aggregate is accepted. *)
Theorem C55_complete chal (g : G1) (h : G2) (N n : nat) (alpha beta : F) ps vs vk (proofs : seq proof)
    (inputs : seq (seq F)) inc (ks : nat -> F) :
  bilinear e -> (forall s, chal s != 0 /\ chal s != 1) ->
  agg_specialize (agg_srs_make g h N alpha beta) n = Some (ps, vs) -> size proofs = n -> (1 < n)%N -> size inputs = n ->
  (forall i, (i < n)%N -> g16_verify_strong e (agg_to_g16_key e vk) (nth [::] inputs i) (nth zero_proof proofs i) = Some true) ->
  obnd (aggregate_proofs e chal ps inc proofs) (fun p => verify_aggregate_proof e chal vs vk inputs p inc ks) = Some true.
Proof.
move=> eb chal01 hsp sz n1 si hok; have [p -> hv] := C55_exact inc eb chal01 hsp sz n1; cbn [obnd].
have hne : inputs != [::] by rewrite -size_eq0 si -lt0n ltnW.
have hsz : all (fun pi => size pi == size (av_ABC_rest vk)) inputs.
  by apply/(all_nthP [::]) => i; rewrite si => /hok/strongE[-> _].
have [b -> [_ hb]] := hv vk inputs ks hne hsz; rewrite hb //.
rewrite /batch_of /batch_holds size_map sz si; apply: eq_bigr => i _; congr (_ *: _).
by have /strongE[_ <-] := hok i (ltn_ord i); rewrite (nth_map zero_proof) ?sz.
Qed.

(** If the aggregate of the same proofs is accepted for the same inputs under as many distinct challenges as there are proofs
    or inputs (the challenge changes with the caller's bytes), then every proof is accepted by the Groth16 verifier for its
    input; an input without a proof is one for which the proof (0, 0, 0) is accepted. *)
Theorem C55_sound chal (g : G1) (h : G2) (N n : nat) (alpha beta : F) ps vs vk (proofs : seq proof)
    (inputs : seq (seq F)) (incs : seq (seq nat)) (challenge : seq nat -> F) :
  bilinear e -> (forall s, chal s != 0 /\ chal s != 1) ->
  agg_specialize (agg_srs_make g h N alpha beta) n = Some (ps, vs) -> size proofs = n -> (1 < n)%N ->
  inputs != [::] -> all (fun pi => size pi == size (av_ABC_rest vk)) inputs ->
  uniq [seq challenge inc | inc <- incs] -> (maxn n (size inputs) <= size incs)%N ->
  (forall inc, inc \in incs -> exists p ks, [/\ aggregate_proofs e chal ps inc proofs = Some p,
     challenge inc = batch_challenge chal p inc & verify_aggregate_proof e chal vs vk inputs p inc ks = Some true]) ->
  forall i, (i < size inputs)%N ->
    g16_verify_strong e (agg_to_g16_key e vk) (nth [::] inputs i) (nth zero_proof proofs i) = Some true.
Proof.
move=> eb chal01 hsp sz n1 hne hsz un hle hacc i hi; apply/strongE; split.
  by move/(all_nthP [::])/(_ i hi)/eqP: hsz.
pose m := maxn n (size inputs).
pose PS j := proof_side e (av_delta_g2 vk) (nth (0, 0, 0) [seq triple pr | pr <- proofs] j).
pose IS j := input_side e (av_alpha_g1 vk) (av_ABC_first vk) (av_ABC_rest vk) (av_beta_g2 vk) (av_gamma_g2 vk) (nth [::] inputs j).
pose x := mkseq (fun j => (if (j < n)%N then PS j else 0) - (if (j < size inputs)%N then IS j else 0)) m.
have : all (fun v => v == 0) x.
  apply: (@vandermonde _ _ _ [seq challenge inc | inc <- incs]) => //; first by rewrite size_mkseq size_map.
  move=> t /mapP[inc hinc ->]; have [p [ks [hagg -> hv]]] := hacc inc hinc.
  have [p' hagg' hex] := C55_exact inc eb chal01 hsp sz n1.
  move: hagg'; rewrite hagg => -[ep]; subst p'.
  have [b hb [hb1 _]] := hex vk inputs ks hne hsz; move: hv; rewrite hb => -[bt].
  have := hb1 bt; rewrite /batch_of /batch_holds size_map sz => hbat.
  set r := batch_challenge _ _ _ in hbat *.
  rewrite hvE size_mkseq.
  have trunc (f : nat -> GT) n' : (n' <= m)%N -> \sum_(j < m) r ^+ j *: (if (j < n')%N then f j else 0) = \sum_(j < n') r ^+ j *: f j.
    move=> hn'; rewrite [RHS](big_ord_widen m (fun j => r ^+ j *: f j)) // [RHS]big_mkcond /=.
    by apply: eq_bigr => j _; case: ifP => // _; rewrite scaler0.
  transitivity (\sum_(j < m) r ^+ j *: (if (j < n)%N then PS j else 0) - \sum_(j < m) r ^+ j *: (if (j < size inputs)%N then IS j else 0)).
    by rewrite -sumrB; apply: eq_bigr => j _; rewrite nth_mkseq // scalerBr.
  by rewrite !trunc ?leq_maxl ?leq_maxr // hbat subrr.
have him : (i < m)%N by exact: leq_trans hi (leq_maxr _ _).
move/(all_nthP 0)/(_ i); rewrite size_mkseq => /(_ him); rewrite nth_mkseq // hi subr_eq0 => /eqP h0.
rewrite -/(IS i) -h0 /PS; case: ltnP => hin; first by rewrite (nth_map zero_proof) ?sz.
by rewrite nth_default ?sz // /proof_side /= (B0l eb) (B0l eb) subrr.
Qed.

(** The separate checks of an aggregated proof, with the transcript's challenges: [xs] for the rounds, [r] for the batch, [z] for
    the openings of the final keys. *)
Section Checks.
Variables (s : agg_verification_srs G1 G2) (vk : agg_verification_key G1 G2) (inputs : seq (seq F)) (p : agg_proof G1 G2 GT).
Variables (xs : seq F) (r z : F).
Let gp := ap_gipa p.
Let A := gp_final_a gp.
Let B := gp_final_b gp.
Let C := gp_final_c gp.
Let v := gp_final_vkey gp.
Let w := gp_final_wkey gp.
Let fv := challenge_poly (rev xs) z.
Let fw := challenge_poly (rev [seq x^-1 | x <- xs]) (z / r) * z ^+ vs_n s.

Record all_checks : Prop := AllChecks {
  (* one challenge for each round *)
  chk_rounds : [&& size xs == size (gp_z_ab gp), size xs == size (gp_comms_ab gp), size xs == size (gp_comms_c gp),
                   size xs == size (gp_z_c gp) & (0 < size xs)%N];
  (* the final values are the folded inner products *)
  chk_ab : e A B = folded (ap_ip_ab p) xs (gp_z_ab gp);
  chk_c : challenge_poly (rev xs) r *: C = folded (ap_agg_c p) xs (gp_z_c gp);
  (* the final values are committed to, under the final keys *)
  chk_com_ab1 : e A v.1 + e w.1 B = folded (ap_com_ab p).1 xs [seq (t.1.1, t.2.1) | t <- gp_comms_ab gp];
  chk_com_ab2 : e A v.2 + e w.2 B = folded (ap_com_ab p).2 xs [seq (t.1.2, t.2.2) | t <- gp_comms_ab gp];
  chk_com_c1 : e C v.1 = folded (ap_com_c p).1 xs [seq (t.1.1, t.2.1) | t <- gp_comms_c gp];
  chk_com_c2 : e C v.2 = folded (ap_com_c p).2 xs [seq (t.1.2, t.2.2) | t <- gp_comms_c gp];
  (* the final keys open at z to the values of the polynomials of the challenges *)
  chk_v1 : e (vs_g s) (v.1 - fv *: vs_h s) = e (vs_g_alpha s - z *: vs_g s) (ap_vkey_opening p).1;
  chk_v2 : e (vs_g s) (v.2 - fv *: vs_h s) = e (vs_g_beta s - z *: vs_g s) (ap_vkey_opening p).2;
  chk_w1 : e (w.1 - fw *: vs_g s) (vs_h s) = e (ap_wkey_opening p).1 (vs_h_alpha s - z *: vs_h s);
  chk_w2 : e (w.2 - fw *: vs_g s) (vs_h s) = e (ap_wkey_opening p).2 (vs_h_beta s - z *: vs_h s);
  (* the batch equation *)
  chk_batch : ap_ip_ab p - e (ap_agg_c p) (av_delta_g2 vk)
    = \sum_(j < size inputs) r ^+ j *: input_side e (av_alpha_g1 vk) (av_ABC_first vk) (av_ABC_rest vk) (av_beta_g2 vk)
                                         (av_gamma_g2 vk) (nth [::] inputs j) }.
End Checks.

(** The challenges of the rounds, in order: after the batch challenge the transcript takes the combined values and, for each
    round, the cross terms. *)
Definition batch_transcript p inc : seq item :=
  [:: TrTag _ _ _ tag_snarkpack; TrTag _ _ _ tag_random_r; TrGT _ _ (ap_com_ab p).1; TrGT _ _ (ap_com_ab p).2;
      TrGT _ _ (ap_com_c p).1; TrGT _ _ (ap_com_c p).2; TrBytes _ _ _ inc; TrGT _ _ (ap_ip_ab p); TrG1 _ _ (ap_agg_c p);
      TrTag _ _ _ tag_gipa].
Definition round_transcript p (j : nat) : seq item :=
  let gp := ap_gipa p in
  let zab := nth (0, 0) (gp_z_ab gp) j in
  let zc := nth (0, 0) (gp_z_c gp) j in
  let tab := nth (0, 0, (0, 0)) (gp_comms_ab gp) j in
  let tuc := nth (0, 0, (0, 0)) (gp_comms_c gp) j in
  [:: TrGT _ _ zab.1; TrGT _ _ zab.2; TrG1 _ _ zc.1; TrG1 _ _ zc.2; TrGT _ _ tab.1.1; TrGT _ _ tab.1.2; TrGT _ _ tab.2.1;
      TrGT _ _ tab.2.2; TrGT _ _ tuc.1.1; TrGT _ _ tuc.1.2; TrGT _ _ tuc.2.1; TrGT _ _ tuc.2.2].
Definition rounds_transcript p inc (k : nat) : seq item :=
  batch_transcript p inc ++ flatten [seq round_transcript p j | j <- iota 0 k].
Definition round_challenges chal p inc : seq F :=
  [seq chal (rounds_transcript p inc j.+1) | j <- iota 0 (size (gp_comms_ab (ap_gipa p)))].
Definition opening_challenge chal p inc : F :=
  let gp := ap_gipa p in
  chal (rounds_transcript p inc (size (gp_comms_ab gp)) ++
    [:: TrTag _ _ _ tag_random_z; TrScalar _ _ _ (last 0 (round_challenges chal p inc))^-1;
        TrG2 _ _ (gp_final_vkey gp).1; TrG2 _ _ (gp_final_vkey gp).2; TrG1 _ _ (gp_final_wkey gp).1; TrG1 _ _ (gp_final_wkey gp).2]).

(** On any proof whatever, accepted with some coefficients: every check whose coefficient can be changed alone without
    changing the answer holds by itself; so when this is the case for all nine, every check holds. For each coefficient
    there is at most one value with which a proof failing its check passes. *)
Theorem C55_checks chal s vk (inputs : seq (seq F)) p inc (ks : nat -> F) :
  bilinear e -> (forall s, chal s != 0 /\ chal s != 1) -> inputs != [::] ->
  all (fun pi => size pi == size (av_ABC_rest vk)) inputs ->
  verify_aggregate_proof e chal s vk inputs p inc ks = Some true ->
  (forall i, (i < 9)%N -> exists2 c, c != ks i &
     verify_aggregate_proof e chal s vk inputs p inc (fun j => if j == i then c else ks j) = Some true) ->
  all_checks s vk inputs p (round_challenges chal p inc) (batch_challenge chal p inc) (opening_challenge chal p inc).
Proof.
move=> eb chal01 hne hsz hv hch.
rewrite (verifyE eb chal01 s hsz hne) in hv.
have {}hch i : (i < 9)%N -> exists2 c, c != ks i & _ := fun hi => let: ex_intro2 c h1 h2 := hch i hi in
  ex_intro2 _ _ c h1 (etrans (esym (verifyE eb chal01 s hsz hne p inc _)) h2).
rewrite /gipa_verify in hv hch.
case: ifP hv hch => [/and3P[/eqP sz1 /eqP sz2 /eqP sz3]|//].
set gp := ap_gipa p in sz1 sz2 sz3 *.
have trE : rcons (agg_tr1 p inc) (TrTag _ _ _ tag_gipa) = batch_transcript p inc by [].
have -> := @gipa_challengesE _ _ _ _ chal (size (gp_comms_ab gp)) (rcons (agg_tr1 p inc) (TrTag _ _ _ tag_gipa))
  (gp_comms_ab gp) (gp_z_ab gp) (gp_comms_c gp) (gp_z_c gp) (round_transcript p) erefl (esym sz1) (esym sz2) (esym sz3) (fun _ _ => erefl).
rewrite trE; cbn [fst snd]; rewrite -/(rounds_transcript p inc (size (gp_comms_ab gp))).
rewrite -[[seq _ | j <- iota 0 _]]/(round_challenges chal p inc).
have szx : size (round_challenges chal p inc) = size (gp_comms_ab gp) by rewrite size_map size_iota.
rewrite /opening_challenge; set xs := round_challenges _ _ _ in szx *.
case: (altP (xs =P [::])) => [->//|nex].
have nrx : rev xs != [::] by rewrite -size_eq0 size_rev size_eq0.
rewrite eval_productE // mulr1 gipa_res_merge tuz_merge0 gipa_resE -?szx // ?szx //; cbn [obnd].
have lastE (l : seq F) : l != [::] -> nth 0 (rev [seq x^-1 | x <- l]) 0 = (last 0 l)^-1.
  by case/lastP: l => // l x _; rewrite map_rcons rev_rcons last_rcons.
rewrite lastE //.
rewrite -/(batch_challenge chal p inc) -[agg_r _ _ _]/(batch_challenge chal p inc) /agg_z -/gp.
rewrite -[size (gp_comms_ab gp)]szx.
set r := batch_challenge _ _ _; set z := chal _.
set ds := check_defects _ _ _ _ _ _ _; set D := batch_defect _ _ _ _ _ _.
set b1 := (_ == _); move=> [/andP[hb1 /eqP hD]] hch.
have hds i : (i < 9)%N -> ds`_i = 0.
  move=> hi; have [c cne [/andP[_ /eqP hD']]] := hch i hi.
  have : (c - ks i) *: ds`_i = 0.
    have := congr2 (fun x y => x - y) hD' hD; rewrite subrr => h00; rewrite -[RHS]h00.
    rewrite opprD addrACA subrr addr0 -sumrB (bigD1 (Ordinal hi)) //= eqxx -scalerBl big1 ?addr0 // => j.
    by rewrite -val_eqE /= => /negbTE ->; rewrite subrr.
  by move/eqP; rewrite scaler_eq0 subr_eq0 (negbTE cne) => /eqP.
have {}hD : D = 0 by rewrite -hD big1 ?add0r // => i _; rewrite hds ?scaler0.
have en (x : G1) y : e (- x) y = - e x y by rewrite -scaleN1r (e_scalel eb) scaleN1r.
have en' (x : G1) y : e x (- y) = - e x y by rewrite -scaleN1r (e_scaler eb) scaleN1r.
have sub0 (x y : GT) : - x + y = 0 -> x = y by move/eqP; rewrite addrC subr_eq0 => /eqP.
have d0 := hds 0%N isT; have d1 := hds 1%N isT; have d2 := hds 2%N isT; have d3 := hds 3%N isT; have d4 := hds 4%N isT.
have d5 := hds 5%N isT; have d6 := hds 6%N isT; have d7 := hds 7%N isT; have d8 := hds 8%N isT.
split.
- by rewrite szx -sz1 -sz2 -sz3 eqxx -szx lt0n size_eq0.
- by apply/eqP; rewrite -subr_eq0; apply/eqP.
- by rewrite challenge_polyE; apply/eqP.
- by apply/eqP; rewrite -subr_eq0; apply/eqP.
- by apply/eqP; rewrite -subr_eq0; apply/eqP.
- by apply/eqP; rewrite -subr_eq0; apply/eqP.
- by apply/eqP; rewrite -subr_eq0; apply/eqP.
- by apply: sub0; rewrite -en !challenge_polyE.
- by apply: sub0; rewrite -en !challenge_polyE.
- by apply: sub0; rewrite -en' !challenge_polyE.
- by apply: sub0; rewrite -en' !challenge_polyE.
- by move/eqP: hD; rewrite /D /batch_defect -addrA addr_eq0 => /eqP ->; rewrite opprD opprK addrC.
Qed.
End C55.

(** Four proofs over F_17 (the pairing is the product): alpha = 2, beta = 3, gamma = 5, delta = 7, inputs 1, 2, 3, 4, and a
    transcript whose challenges depend on the caller's bytes. *)
Definition C55_item := tr_item C08_V C08_V C08_V.
Definition C55_bytes (s : seq C55_item) : nat := sumn [seq if it is TrBytes b then sumn b else 0%N | it <- s].
Definition C55_chal (s : seq C55_item) : C05_F := (2 + C55_bytes s %% 10)%:R.
Lemma C55_chal01 s : C55_chal s != 0 /\ C55_chal s != 1.
Proof.
rewrite /C55_chal; have : (C55_bytes s %% 10 < 10)%N by rewrite ltn_mod.
by move: (C55_bytes s %% 10)%N; do 10!case=> //.
Qed.
Definition C55_vk : agg_verification_key C08_V C08_V :=
  AggVerificationKey (2%:R : C08_V) (3%:R : C08_V) (5%:R : C08_V) (7%:R : C08_V) (4%:R : C08_V) [:: (6%:R : C08_V)].
Definition C55_inputs : seq (seq C05_F) := [:: [:: 1]; [:: 2%:R]; [:: 3%:R]; [:: 4%:R]].
Definition C55_proof (x C d : C05_F) : g16_proof C08_V C08_V :=
  G16Proof (6%:R + (4%:R + 6%:R * x) * 5%:R + 7%:R * C + d : C08_V) (1 : C08_V) (C : C08_V).
(** The error [d] in the last proof. *)
Definition C55_proofs (d : C05_F) : seq (g16_proof C08_V C08_V) :=
  [:: C55_proof 1 3%:R 0; C55_proof 2%:R 5%:R 0; C55_proof 3%:R 0 0; C55_proof 4%:R 11%:R d].
Definition C55_run (d : C05_F) inc ks : option bool :=
  obnd (agg_specialize (agg_srs_make (1 : C08_V) (1 : C08_V) 8 5%:R 6%:R) 4) (fun sp =>
  obnd (aggregate_proofs C08_e C55_chal sp.1 inc (C55_proofs d)) (fun p =>
    verify_aggregate_proof C08_e C55_chal sp.2 C55_vk C55_inputs p inc ks)).

Example C55_srs_witness : agg_specialize (agg_srs_make (1 : C08_V) (1 : C08_V) 8 (5%:R : C05_F) 6%:R) 4 : bool.
Proof. by vm_compute. Qed.
Example C55_strong_witness :
  all (fun i => g16_verify_strong C08_e (agg_to_g16_key C08_e C55_vk) (nth [::] C55_inputs i) (nth (zero_proof _ _) (C55_proofs 0) i) == Some true)
    (iota 0 4)
  /\ g16_verify_strong C08_e (agg_to_g16_key C08_e C55_vk) [:: 4%:R] (C55_proof 4%:R 11%:R 1) = Some false.
Proof. by vm_compute. Qed.
Example C55_challenges_witness p : uniq [seq batch_challenge C55_chal p [:: i] | i <- iota 0 4].
Proof. by vm_compute. Qed.

(** Accepted for all bytes and coefficients, by [C55_complete]. *)
Lemma C55_accept ps vs inc ks : agg_specialize (agg_srs_make (1 : C08_V) (1 : C08_V) 8 (5%:R : C05_F) 6%:R) 4 = Some (ps, vs) ->
  obnd (aggregate_proofs C08_e C55_chal ps inc (C55_proofs 0)) (fun p =>
    verify_aggregate_proof C08_e C55_chal vs C55_vk C55_inputs p inc ks) = Some true.
Proof.
move=> E; apply: (C55_complete (n := 4) _ _ C08_e_bilinear C55_chal01 E) => // i hi.
by have [/allP h _] := C55_strong_witness; apply/eqP/h; rewrite mem_iota.
Qed.
Example C55_accept_witness inc ks : C55_run 0 inc ks = Some true.
Proof.
rewrite /C55_run; case E : (agg_specialize _ _) C55_srs_witness => [[ps vs]|//] _; rewrite {1}/obnd.
exact: C55_accept E.
Qed.

(** Rejected when the last proof is wrong, whatever the bytes and coefficients, by [C55_exact]. *)
Example C55_reject_witness inc ks : C55_run 1 inc ks = Some false.
Proof.
rewrite /C55_run; case E : (agg_specialize _ _) C55_srs_witness => [[ps vs]|//] _; cbn [obnd fst snd].
have [p -> hp] := @C55_exact _ _ _ _ C08_e C55_chal _ _ _ _ _ _ _ _ (C55_proofs 1) inc C08_e_bilinear C55_chal01 E erefl isT.
cbn [obnd]; have [b -> hb] := hp C55_vk C55_inputs ks isT isT.
congr Some; apply/negbTE/negP => /hb; rewrite /batch_of /batch_holds /=.
rewrite -[batch_challenge _ _ _]/((2 + (sumn inc + 0) %% 10)%:R : C05_F).
rewrite !big_ord_recr !big_ord0 /= /input_side !big_ord_recr !big_ord0 /=.
move/eqP; apply/negP.
have : ((sumn inc + 0) %% 10)%N \in iota 0 10 by rewrite mem_iota ltn_mod.
by move: ((sumn inc + 0) %% 10)%N; apply/allP; vm_compute.
Qed.

(** The hypotheses of [C55_sound] and [C55_checks] for these proofs: accepted under four distinct challenges, with all
    coefficients. *)
Example C55_sound_witness : exists ps vs (challenge : seq nat -> C05_F),
  [/\ agg_specialize (agg_srs_make (1 : C08_V) (1 : C08_V) 8 (5%:R : C05_F) 6%:R) 4 = Some (ps, vs),
      uniq [seq challenge inc | inc <- [:: [:: 0]; [:: 1]; [:: 2]; [:: 3]]%N]
    & forall inc, inc \in [:: [:: 0]; [:: 1]; [:: 2]; [:: 3]]%N -> exists p,
        [/\ aggregate_proofs C08_e C55_chal ps inc (C55_proofs 0) = Some p, challenge inc = batch_challenge C55_chal p inc
          & forall ks, verify_aggregate_proof C08_e C55_chal vs C55_vk C55_inputs p inc ks = Some true]].
Proof.
case E : (agg_specialize _ _) C55_srs_witness => [[ps vs]|//] _.
exists ps, vs, (fun inc => C55_chal [:: TrBytes _ _ _ inc]); split; [by []|by vm_compute|move=> inc _].
have [p hp _] := @C55_exact _ _ _ _ C08_e C55_chal _ _ _ _ _ _ _ _ (C55_proofs 0) inc C08_e_bilinear C55_chal01 E erefl isT.
exists p; split; [exact: hp|by []|move=> ks].
by have := C55_accept inc ks E; rewrite hp.
Qed.

(** The number of aggregated proofs is not compared with the number of inputs: an aggregate of two proofs is accepted for a
    single input, the second proof being (0, 0, 0). *)
Theorem C55_count_refuted : exists (F : fieldType) (V : lmodType F) (e : V -> V -> V) chal (g h : V) N n alpha beta ps vs vk
    (proofs : seq (g16_proof V V)) (inputs : seq (seq F)) inc,
  [/\ bilinear e /\ (forall s, chal s != 0 /\ chal s != 1),
      agg_specialize (agg_srs_make g h N alpha beta) n = Some (ps, vs), size proofs != size inputs
    & forall ks, obnd (aggregate_proofs e chal ps inc proofs) (fun p => verify_aggregate_proof e chal vs vk inputs p inc ks)
                 = Some true].
Proof.
have : agg_specialize (agg_srs_make (1 : C08_V) (1 : C08_V) 8 (5%:R : C05_F) 6%:R) 2 : bool by vm_compute.
case E : (agg_specialize _ _) => [[ps vs]|//] _.
pose prs := [:: C55_proof 1 3%:R 0; zero_proof C08_V C08_V].
exists C05_F, C08_V, C08_e, C55_chal, 1, 1, 8%N, 2%N, 5%:R, 6%:R, ps, vs, C55_vk, prs, [:: [:: 1]], [::].
split; [by split; [exact: C08_e_bilinear|exact: C55_chal01]|exact: E|by []|move=> ks].
have [p -> hp] := @C55_exact _ _ _ _ C08_e C55_chal _ _ _ _ _ _ _ _ prs [::] C08_e_bilinear C55_chal01 E erefl isT.
cbn [obnd]; have [b -> [_ hb]] := hp C55_vk [:: [:: 1]] ks isT isT.
congr Some; apply: hb; rewrite /batch_of /batch_holds /=.
rewrite !big_ord_recr !big_ord0 /= /input_side !big_ord_recr !big_ord0 /=.
rewrite -[batch_challenge _ _ _]/(2%:R : C05_F).
by apply/eqP; vm_compute.
Qed.

(** A proof without rounds, or with vectors of different lengths, is not rejected: verification is undefined. *)
Definition C55_bad (cab : seq (C08_V * C08_V * (C08_V * C08_V))) : agg_proof C08_V C08_V C08_V :=
  AggProof (0, 0) (0, 0) 0 0 (GipaProof 2 cab [::] [::] [::] 0 0 0 (0, 0) (0, 0)) (0, 0) (0, 0).
Theorem C55_defined_refuted : exists (F : fieldType) (V : lmodType F) (e : V -> V -> V) chal vs vk (inputs : seq (seq F))
    (p p' : agg_proof V V V),
  [/\ bilinear e /\ (forall s, chal s != 0 /\ chal s != 1), inputs != [::] /\ all (fun pi => size pi == size (av_ABC_rest vk)) inputs,
      (gp_comms_ab (ap_gipa p) == [::]) && (size (gp_comms_ab (ap_gipa p')) != size (gp_comms_c (ap_gipa p')))
    & forall inc ks, verify_aggregate_proof e chal vs vk inputs p inc ks = None
                  /\ verify_aggregate_proof e chal vs vk inputs p' inc ks = None].
Proof.
exists C05_F, C08_V, C08_e, C55_chal, (AggVerificationSrs 2 (0 : C08_V) (0 : C08_V) 0 0 0 0), C55_vk, C55_inputs, (C55_bad [::]),
  (C55_bad [:: (0, 0, (0, 0))]).
split; [by split; [exact: C08_e_bilinear|exact: C55_chal01]|by []|by []|move=> inc ks].
by rewrite /verify_aggregate_proof /verify_tipp_mipp.
Qed.

Print Assumptions C55_exact.
Print Assumptions C55_complete.
Print Assumptions C55_sound.
Print Assumptions C55_checks.
Print Assumptions C55_count_refuted.
Print Assumptions C55_defined_refuted.
