(** Aggregated Groth16 proofs: what the verifier computes on the output of the aggregator, and on any proof. *)
From mathcomp Require Import all_ssreflect all_algebra ssrAC.
From Verif.Model Require Import Base KnowledgeCommitment Groth16 OrderedMap Aggregate.
From Verif.Spec Require Import GroupSpec AggregateSpec.
From Verif.Proofs Require Import NatTac KcProofs FieldTac AggregateProofs.
Set Implicit Arguments.
Unset Strict Implicit.
Unset Printing Implicit Defensive.
Import GRing.Theory.
Local Open Scope ring_scope.

Section Top.
Variables (F : fieldType) (G1 G2 GT : lmodType F).
Variable e : G1 -> G2 -> GT.
Hypothesis eb : bilinear e.
Add Field Ff_aggt : (@ffield_theory F).
Notation item := (tr_item G1 G2 GT).
Variable chal : seq item -> F.
Hypothesis chal01 : forall s, chal s != 0 /\ chal s != 1.

Let chal0 s : chal s != 0. Proof. by case: (chal01 s). Qed.

Lemma scalar_powersE n (r : F) : (0 < n)%N -> structured_scalar_power n r = gen_powers (V := [lmodType F of F^o]) 1 r n.
Proof.
case: n => [//|n] _; rewrite /structured_scalar_power subn1 [n.+1.-1]/= [RHS]/=; congr (_ :: _).
have h : forall c, scalar_powers_from c r n = gen_powers (V := [lmodType F of F^o]) (r *: (c : F^o)) r n.
  elim: n => [//|n IH] c; rewrite /= IH; congr (_ :: _); first by rewrite /GRing.scale /= mulrC.
  by rewrite /GRing.scale /= [c * r]mulrC.
exact: h.
Qed.

(** Pairing checks. *)
Definition ab_sum (ab : seq (G1 * G2)) : GT := \sum_(p <- ab) e p.1 p.2.

Lemma merge_randomE k pc ab out : merge_random e k pc ab out = (pc.1 + k *: ab_sum ab, pc.2 + k *: out).
Proof.
rewrite /merge_random; congr (_, _); last by case: eqP => // ->; rewrite scaler0.
rewrite /ab_sum; elim: ab pc.1 => [|p ab IH] x /=; first by rewrite big_nil scaler0 addr0.
by rewrite IH big_cons scalerDr addrA (e_scalel eb).
Qed.

Lemma ab_sum1 p : ab_sum [:: p] = e p.1 p.2.
Proof. by rewrite /ab_sum big_seq1. Qed.
Lemma ab_sum2 p q : ab_sum [:: p; q] = e p.1 p.2 + e q.1 q.2.
Proof. by rewrite /ab_sum big_cons big_seq1. Qed.

(** The defects of the nine randomised checks on any proof: left side minus right side. *)
Definition kzg_v_defect (g ga : G1) (h : G2) (fz z : F) (vkey opening : G2) : GT :=
  e (- g) (vkey - fz *: h) + e (ga - z *: g) opening.
Definition kzg_w_defect (g : G1) (h ha : G2) (fz z : F) (wkey opening : G1) : GT :=
  e (wkey - fz *: g) (- h) + e opening (ha - z *: h).

Definition check_defects (s : agg_verification_srs G1 G2) (p : agg_proof G1 G2 GT) (res : gipa_tuz G1 GT)
    (fvz fwz z : F) : seq GT :=
  let g := ap_gipa p in
  [:: kzg_v_defect (vs_g s) (vs_g_alpha s) (vs_h s) fvz z (gp_final_vkey g).1 (ap_vkey_opening p).1;
      kzg_v_defect (vs_g s) (vs_g_beta s) (vs_h s) fvz z (gp_final_vkey g).2 (ap_vkey_opening p).2;
      kzg_w_defect (vs_g s) (vs_h s) (vs_h_alpha s) fwz z (gp_final_wkey g).1 (ap_wkey_opening p).1;
      kzg_w_defect (vs_g s) (vs_h s) (vs_h_beta s) fwz z (gp_final_wkey g).2 (ap_wkey_opening p).2;
      e (gp_final_a g) (gp_final_b g) - tz_zab res;
      e (gp_final_a g) (gp_final_vkey g).1 + e (gp_final_wkey g).1 (gp_final_b g) - tz_tab res;
      e (gp_final_a g) (gp_final_vkey g).2 + e (gp_final_wkey g).2 (gp_final_b g) - tz_uab res;
      e (gp_final_c g) (gp_final_vkey g).1 - tz_tc res;
      e (gp_final_c g) (gp_final_vkey g).2 - tz_uc res].


(** The challenges of the transcript of a proof. *)
Definition agg_tr (p : agg_proof G1 G2 GT) (inc : seq nat) : seq item :=
  [:: TrTag _ _ _ tag_snarkpack; TrTag _ _ _ tag_random_r; TrGT _ _ (ap_com_ab p).1; TrGT _ _ (ap_com_ab p).2;
      TrGT _ _ (ap_com_c p).1; TrGT _ _ (ap_com_c p).2; TrBytes _ _ _ inc].
Definition agg_r p inc : F := chal (agg_tr p inc).
Definition agg_tr1 p inc : seq item := (agg_tr p inc ++ [:: TrGT _ _ (ap_ip_ab p); TrG1 _ _ (ap_agg_c p)])%SEQ.
Definition agg_z (p : agg_proof G1 G2 GT) (tr : seq item) (c0 : F) : F :=
  let g := ap_gipa p in
  chal (tr ++ [:: TrTag _ _ _ tag_random_z; TrScalar _ _ _ c0; TrG2 _ _ (gp_final_vkey g).1; TrG2 _ _ (gp_final_vkey g).2;
                  TrG1 _ _ (gp_final_wkey g).1; TrG1 _ _ (gp_final_wkey g).2])%SEQ.

(** Sums over the powers of r. *)
Lemma geom_sum (r : F) m : r != 1 -> (r ^+ m - 1) * (r - 1)^-1 = \sum_(j < m) r ^+ j.
Proof.
move=> r1; have r10 : r - 1 != 0 by rewrite subr_eq0.
by apply: (mulIf r10); rewrite mulfVK // subrX1 mulrC.
Qed.

Lemma nth_scalar_powers n (r : F) j : (j < n)%N -> nth 0 (structured_scalar_power n r) j = r ^+ j.
Proof.
move=> h; rewrite scalar_powersE ?(leq_ltn_trans _ h) //.
by rewrite (nth_gen_powers (V := [lmodType F of F^o])) // /GRing.scale /= mulr1.
Qed.

Lemma multi_rE (inputs : seq (seq F)) r i (pi0 : seq F) : vget inputs 0 = Some pi0 ->
  foldl (fun c j => c + nth 0 (nth [::] inputs j) i * nth 0 (structured_scalar_power (size inputs) r) j) (nth 0 pi0 i)
    (iota 1 (size inputs).-1) = \sum_(j < size inputs) r ^+ j * nth 0 (nth [::] inputs j) i.
Proof.
case: inputs => [//|x inputs] [<-]; rewrite -[(size (x :: inputs)).-1]/(size inputs).
set f := fun j => nth 0 (nth [::] (x :: inputs) j) i.
have h l : forall c : F, foldl (fun c j => c + f j * nth 0 (structured_scalar_power (size (x :: inputs)) r) j) c l
   = c + \sum_(j <- l) f j * nth 0 (structured_scalar_power (size (x :: inputs)) r) j.
  by elim: l => [|j l IH] c /=; rewrite ?big_nil ?addr0 // IH big_cons addrA.
rewrite h -(big_mkord xpredT (fun j => r ^+ j * f j)) -[index_iota _ _]/(iota 0 (size inputs).+1).
rewrite -[iota 0 _]/(0%N :: iota 1 (size inputs)) big_cons expr0 mul1r; congr (_ + _).
apply: eq_big_seq => j; rewrite mem_iota => hj; rewrite nth_scalar_powers; last by move: hj; rewrite add1n /= => /andP[].
by rewrite mulrC.
Qed.

Lemma sum9 (f : nat -> GT) :
  \sum_(i < 9) f i = f 0%N + f 1%N + f 2%N + f 3%N + f 4%N + f 5%N + f 6%N + f 7%N + f 8%N.
Proof. by rewrite !big_ord_recr big_ord0 /= add0r. Qed.

Lemma regroup (ks : nat -> F) (K0 K1 K2 K3 X4 X5 X6 X7 X8 z4 z5 z6 z7 z8 s1 s2 c i : GT) :
  (0 + ks 0%N *: K0 + ks 1%N *: K1 + ks 2%N *: K2 + ks 3%N *: K3 + ks 4%N *: X4 + ks 5%N *: X5 + ks 6%N *: X6
   + ks 7%N *: X7 + ks 8%N *: X8 + s1 + s2 + c
   == 0 + ks 0%N *: 0 + ks 1%N *: 0 + ks 2%N *: 0 + ks 3%N *: 0 + ks 4%N *: z4 + ks 5%N *: z5 + ks 6%N *: z6
   + ks 7%N *: z7 + ks 8%N *: z8 + i)
  = (ks 0%N *: K0 + ks 1%N *: K1 + ks 2%N *: K2 + ks 3%N *: K3 + ks 4%N *: (X4 - z4) + ks 5%N *: (X5 - z5)
   + ks 6%N *: (X6 - z6) + ks 7%N *: (X7 - z7) + ks 8%N *: (X8 - z8) + (s1 + s2 + c - i) == 0).
Proof.
rewrite -subr_eq0 !scaler0 !addr0 !add0r !scalerBr !opprD !addrA; congr (_ == 0).
by rewrite (ACl (1*2*3*4*5*13*6*14*7*15*8*16*9*17*10*11*12*18)).
Qed.

(** Merged values. *)
Lemma folded_cons (V : lmodType F) (v : V) x xs l lr : folded v (x :: xs) (l :: lr) = folded (v + x^-1 *: l.1 + x *: l.2) xs lr.
Proof. by rewrite /folded /= big_ord_recl /= -!addrA. Qed.

Lemma gipa_resE (x : gipa_tuz G1 GT) cab zab cc zc xs : size cab = size xs -> size zab = size xs -> size cc = size xs -> size zc = size xs ->
  gipa_res x cab zab cc zc (zip [seq c^-1 | c <- xs] xs)
  = GipaTuz (folded (tz_tab x) xs [seq (t.1.1, t.2.1) | t <- cab]) (folded (tz_uab x) xs [seq (t.1.2, t.2.2) | t <- cab])
      (folded (tz_zab x) xs zab) (folded (tz_tc x) xs [seq (t.1.1, t.2.1) | t <- cc]) (folded (tz_uc x) xs [seq (t.1.2, t.2.2) | t <- cc])
      (folded (tz_zc x) xs zc).
Proof.
elim: xs cab zab cc zc x => [|c xs IH] [|t cab] [|z zab] [|u cc] [|w zc] x //=.
  by case: x => *; rewrite /folded !big_ord0 !addr0.
by move=> [h1] [h2] [h3] [h4]; rewrite IH // !folded_cons.
Qed.

Lemma challenge_polyE (xs : seq F) x : challenge_poly xs x = prodf x xs.
Proof.
elim: xs x => [|c xs IH] x /=; first by rewrite /challenge_poly big_ord0.
rewrite /challenge_poly big_ord_recl /= expn0 expr1 -IH; congr (_ * _); apply: eq_bigr => i _ /=.
by rewrite -expr2 -exprM -expnS.
Qed.

Lemma gipa_challengesE k : forall (tr : seq item) cab zab cc zc (rt : nat -> seq item),
  size cab = k -> size zab = k -> size cc = k -> size zc = k ->
  (forall j, (j < k)%N -> let zab := nth (0, 0) zab j in let zc := nth (0, 0) zc j in
     let tab := nth (0, 0, (0, 0)) cab j in let tuc := nth (0, 0, (0, 0)) cc j in
     rt j = [:: TrGT _ _ zab.1; TrGT _ _ zab.2; TrG1 _ _ zc.1; TrG1 _ _ zc.2; TrGT _ _ tab.1.1; TrGT _ _ tab.1.2; TrGT _ _ tab.2.1;
      TrGT _ _ tab.2.2; TrGT _ _ tuc.1.1; TrGT _ _ tuc.1.2; TrGT _ _ tuc.2.1; TrGT _ _ tuc.2.2]) ->
  gipa_challenges chal tr cab zab cc zc
  = ([seq chal (tr ++ flatten [seq rt i | i <- iota 0 j.+1])%SEQ | j <- iota 0 k], (tr ++ flatten [seq rt i | i <- iota 0 k])%SEQ).
Proof.
elim: k => [|k IH] tr [|t cab] [|z zab] [|u cc] [|w zc] rt //=; first by rewrite cats0.
move=> [h1] [h2] [h3] [h4] hrt; rewrite -(hrt 0%N isT).
rewrite (IH _ _ _ _ _ (fun j => rt j.+1) h1 h2 h3 h4) => [|j hj]; last exact: (hrt j.+1 hj).
have sh m : [seq rt i | i <- iota 1 m] = [seq rt i.+1 | i <- iota 0 m] by rewrite -[1%N]addn0 iotaDl -map_comp.
congr (_ :: _, _).
- by rewrite cats0.
- rewrite -[1%N in RHS]addn0 iotaDl -map_comp; apply: eq_map => j /=.
  have sh2 : [seq rt i | i <- iota 2 j] = [seq rt i.+1 | i <- iota 1 j] by rewrite -[2%N]/(1 + 1)%N iotaDl -map_comp.
  by rewrite -[(1 + 0).+1%N]/2%N sh2 -catA.
- by rewrite sh -catA.
Qed.

Section Any.
Variables (s : agg_verification_srs G1 G2) (vk : agg_verification_key G1 G2) (inputs : seq (seq F)).
Hypothesis hsz : all (fun pi => size pi == size (av_ABC_rest vk)) inputs.
Hypothesis hne : inputs != [::].

Notation in_side := (input_side e (av_alpha_g1 vk) (av_ABC_first vk) (av_ABC_rest vk) (av_beta_g2 vk) (av_gamma_g2 vk)).

Definition batch_defect (p : agg_proof G1 G2 GT) inc : GT :=
  \sum_(j < size inputs) agg_r p inc ^+ j *: in_side (nth [::] inputs j) + e (ap_agg_c p) (av_delta_g2 vk) - ap_ip_ab p.

Lemma verifyE p inc ks : verify_aggregate_proof e chal s vk inputs p inc ks =
  obnd (gipa_verify chal (agg_tr1 p inc) p (agg_r p inc)) (fun v => let: (res, fr, ch, chi, tr2) := v in
    let z := agg_z p tr2 (nth 0 ch 0) in
    let ds := check_defects s p res (prodf z chi) (prodf (z * (agg_r p inc)^-1) ch * z ^+ vs_n s) z in
    Some ((fr *: gp_final_c (ap_gipa p) == tz_zc res) && (\sum_(i < 9) ks i *: ds`_i + batch_defect p inc == 0))).
Proof.
rewrite /verify_aggregate_proof hsz /verify_tipp_mipp -/(agg_tr p inc) -/(agg_r p inc) -/(agg_tr1 p inc).
rewrite /gipa_verify; case: ifP => // _; set chi0 := (gipa_challenges _ _ _ _ _ _).1.
case: (altP (chi0 =P [::])) => [->//|nechi].
have ner : rev chi0 != [::] by rewrite -size_eq0 size_rev size_eq0.
have nec : rev [seq x^-1 | x <- chi0] != [::] by rewrite -size_eq0 size_rev size_map size_eq0.
rewrite eval_productE // mulr1; cbn [obnd].
set ch := rev [seq _ | _ <- _] in nec *; set chi := rev chi0 in ner *.
set tr2 := (gipa_challenges _ _ _ _ _ _).2; set res := tuz_merge _ _; clearbody res tr2.
have -> : vget ch 0 = Some (nth 0 ch 0) by case: ch nec.
cbn [obnd]; rewrite -/(agg_z p tr2 (nth 0 ch 0)); set z := agg_z _ _ _.
rewrite /verify_kzg_v /verify_kzg_w !eval_productE // mulr1; cbn [obnd]; rewrite !merge_randomE !ab_sum2 !ab_sum1.
have [pi0 hpi0] : exists pi0, vget inputs 0 = Some pi0 by case: inputs hne => // x l _; exists x.
rewrite hpi0; cbn [obnd fst snd].
have sz0 : size pi0 = size (av_ABC_rest vk) by move: hsz hpi0; case: inputs => // x l /= /andP[/eqP hx _] [<-].
congr Some; congr andb.
set r := agg_r p inc.
have r1 : r != 1 by case: (chal01 (agg_tr p inc)).
set acc := accumulate_chunk _ _ _.
have accE : acc - av_ABC_first vk = \sum_(l < size (av_ABC_rest vk)) (\sum_(j < size inputs) r ^+ j * nth 0 (nth [::] inputs j) l) *: (av_ABC_rest vk)`_l.
  rewrite /acc /accumulate_chunk size_map size_iota sz0 take_size [_ + multiexp _ _]addrC addrK.
  rewrite (@multiexpE _ _ _ _ (size (av_ABC_rest vk))) ?leqnn //; apply: eq_bigr => l _; congr (_ *: _).
  by rewrite (nth_map 0%N) ?size_iota // nth_iota // add0n (multi_rE _ _ hpi0).
clearbody acc; rewrite accE geom_sum //.
have -> : (\sum_(j < size inputs) r ^+ j) *: av_ABC_first vk
   + \sum_(l < size (av_ABC_rest vk)) (\sum_(j < size inputs) r ^+ j * nth 0 (nth [::] inputs j) l) *: (av_ABC_rest vk)`_l
   = \sum_(j < size inputs) r ^+ j *: (av_ABC_first vk + \sum_(l < size (av_ABC_rest vk)) (nth [::] inputs j)`_l *: (av_ABC_rest vk)`_l).
  under [RHS]eq_bigr do rewrite scalerDr scaler_sumr; rewrite big_split /= scaler_suml; congr (_ + _).
  rewrite exchange_big /=; apply: eq_bigr => l _; rewrite scaler_suml; apply: eq_bigr => j _.
  by rewrite scalerA.
have bl m (x : 'I_m -> G1) y : e (\sum_(j < m) x j) y = \sum_(j < m) e (x j) y.
  by rewrite (big_morph (e ^~ y) (fun a b => e_addl eb a b y) (B0l eb y)).
rewrite (e_scalel eb) bl scaler_suml.
rewrite /merge_nonrandom /=.
rewrite /batch_defect -/r.
have -> : \sum_(j < size inputs) r ^+ j *: in_side (nth [::] inputs j) =
   \sum_(j < size inputs) r ^+ j *: e (av_alpha_g1 vk) (av_beta_g2 vk)
   + \sum_(j < size inputs) e (r ^+ j *: (av_ABC_first vk + \sum_(l < size (av_ABC_rest vk)) (nth [::] inputs j)`_l *: (av_ABC_rest vk)`_l)) (av_gamma_g2 vk).
  by rewrite -big_split /=; apply: eq_bigr => j _; rewrite (e_scalel eb) -scalerDr.
move: (\sum_(j < _) _) (\sum_(j < _) _) => s1 s2.
rewrite (sum9 (fun i => ks i *: (check_defects s p res (prodf z chi) (prodf (z / r) ch * z ^+ vs_n s) z)`_i)).
exact: regroup.
Qed.
End Any.

(** The specialised reference string. *)
Section Honest.
Variables (g : G1) (h : G2) (al be : F).

Lemma pow2_gt1 n : pow2 n -> (1 < n)%N -> exists2 k, (0 < k)%N & n = (2 ^ k)%N.
Proof.
by move=> /eqP hp n1; exists (trunc_log 2 n) => //; case: (trunc_log 2 n) hp n1 => // ->.
Qed.

Lemma specializeE N n ps vs : agg_specialize (agg_srs_make g h N al be) n = Some (ps, vs) ->
  [/\ pow2 n,
   ps = AggProvingSrs n (gen_powers g al (n + n)) (gen_powers h al n) (gen_powers g be (n + n)) (gen_powers h be n)
          (CKey (gen_powers h al n) (gen_powers h be n))
          (CKey (gen_powers (al ^+ n *: g) al n) (gen_powers (be ^+ n *: g) be n))
   & vs = AggVerificationSrs n g h (al *: g) (be *: g) (al *: h) (be *: h)].
Proof.
rewrite /agg_specialize /agg_srs_make; cbn [as_g_alpha as_h_alpha as_g_beta as_h_beta]; rewrite !size_gen_powers.
case: ifP => // /andP[n0 hp]; case: ifP => // hn.
have hN : (n <= 2 * N)%N by apply: leq_trans hn; rewrite leq_pmull.
have h1 : (1 < 2 * N)%N by apply: leq_trans hn; rewrite mul2n -addnn; slia.
rewrite hn !take_gen_powers // !nth_gen_powers ?(ltnW h1) // !expr0 !expr1 !scale1r [(2 * n)%N]mul2n -addnn !drop_gen_powers.
by move=> [<- <-].
Qed.

Lemma ipg_scale2 (sc : seq F) (w : seq G1) (b : seq G2) : all (fun x => x != 0) sc -> size w = size sc -> size b = size sc ->
  ipg e [seq p.1 *: p.2 | p <- zip [seq x^-1 | x <- sc] w] [seq p.2 *: p.1 | p <- zip b sc] = ipg e w b.
Proof.
elim: sc w b => [|x sc IH] [|y w] [|z b] //= /andP[x0 hx] [hw] [hb].
by rewrite !ipg_cons IH // (e_scalel eb) (e_scaler eb) scalerA mulVf // scale1r.
Qed.

Lemma scale_gen_powers (x : G1) (s : F) (sc : seq F) (r : F) n : sc = gen_powers (V := [lmodType F of F^o]) 1 r n ->
  [seq p.1 *: p.2 | p <- zip [seq x^-1 | x <- sc] (gen_powers x s n)] = gen_powers x (s * r^-1) n.
Proof.
move=> ->; apply: (@eq_from_nth _ 0); rewrite size_map size_zip size_map (size_gen_powers (V := [lmodType F of F^o])) !size_gen_powers minnn // => i hi.
rewrite (nth_map (0, 0)) ?size_zip ?size_map ?(size_gen_powers (V := [lmodType F of F^o])) ?size_gen_powers ?minnn // nth_zip ?size_map ?(size_gen_powers (V := [lmodType F of F^o])) ?size_gen_powers //=.
rewrite (nth_map 0) ?(size_gen_powers (V := [lmodType F of F^o])) // (nth_gen_powers (V := [lmodType F of F^o])) // !nth_gen_powers //.
by rewrite scalerA exprMn exprVn mulrC [_ *: 1]/GRing.scale /= mulr1.
Qed.

Lemma ipg_nth (a : seq G1) (b : seq G2) n : size a = n -> size b = n ->
  ipg e a b = \sum_(i < n) e (nth 0 a i) (nth 0 b i).
Proof.
move=> ha hb; rewrite /ipg (big_nth (0, 0)) size_zip ha hb minnn big_mkord; apply: eq_bigr => i _.
by rewrite nth_zip ?ha ?hb.
Qed.

Lemma kzg_vE a z (xs : seq F) (cs := coefficients_from_transcript xs 1) :
  kzg_v_defect g (a *: g) h (prodf z xs) z (prodf a xs *: h) ((kzg_quotient (Poly cs) z).[a] *: h) = 0.
Proof.
have := kzg_quotientE (Poly cs) z a; rewrite !horner_coefficients !mulr1 => hq.
rewrite /kzg_v_defect -!scalerBl -scaleN1r !(e_scaler eb) !(e_scalel eb) !scalerA -scalerDl hq mulrN1.
by rewrite [(a - z) * _]mulrC addNr scale0r.
Qed.

Lemma kzg_wE n a z r (xs : seq F) (cs := nseq n 0 ++ coefficients_from_transcript xs r) :
  kzg_w_defect g h (a *: h) (prodf (z * r) xs * z ^+ n) z (prodf (a * r) xs *: (a ^+ n *: g)) ((kzg_quotient (Poly cs) z).[a] *: g) = 0.
Proof.
have hc x : (Poly cs).[x] = prodf (x * r) xs * x ^+ n.
  rewrite horner_cat size_nseq horner_coefficients mulrC -[RHS]add0r; congr (_ + _).
  by elim: n {cs} => [|n IH] /=; rewrite ?horner0 // horner_cons IH mul0r addr0.
have := kzg_quotientE (Poly cs) z a; rewrite !hc => hq.
rewrite /kzg_w_defect scalerA -!scalerBl -scaleN1r !(e_scaler eb) !(e_scalel eb) !scalerA -scalerDl hq.
by rewrite mulN1r addNr scale0r.
Qed.

Notation proof := (g16_proof G1 G2).
Definition pA (ps : seq proof) := [seq pr_A p | p <- ps].
Definition pB (ps : seq proof) := [seq pr_B p | p <- ps].
Definition pC (ps : seq proof) := [seq pr_C p | p <- ps].

Lemma honestP N n ps vs (proofs : seq proof) inc :
  agg_specialize (agg_srs_make g h N al be) n = Some (ps, vs) -> size proofs = n -> (1 < n)%N ->
  exists p, [/\ aggregate_proofs e chal ps inc proofs = Some p,
    com_pair e (ps_vkey ps) (ps_wkey ps) (pA proofs) (pB proofs) = Some (ap_com_ab p)
      /\ com_single e (ps_vkey ps) (pC proofs) = Some (ap_com_c p),
    ap_ip_ab p = \sum_(i < n) agg_r p inc ^+ i *: e (nth 0 (pA proofs) i) (nth 0 (pB proofs) i),
    ap_agg_c p = \sum_(i < n) agg_r p inc ^+ i *: nth 0 (pC proofs) i
    & exists v, gipa_verify chal (agg_tr1 p inc) p (agg_r p inc) = Some v /\
      let: (res, fr, ch, chi, tr2) := v in
      let z := agg_z p tr2 (nth 0 ch 0) in
      let ds := check_defects vs p res (prodf z chi) (prodf (z * (agg_r p inc)^-1) ch * z ^+ vs_n vs) z in
      (fr *: gp_final_c (ap_gipa p) == tz_zc res) && all (fun d => d == 0) ds].
Proof.
move=> hsp sz n1; have [hp -> ->] := specializeE hsp; have [k k0 hk] := pow2_gt1 hp n1.
have n0 : (0 < n)%N by exact: ltnW.
have sa : size (pA proofs) = n by rewrite size_map.
have sb : size (pB proofs) = n by rewrite size_map.
have sc : size (pC proofs) = n by rewrite size_map.
rewrite /aggregate_proofs sz n1 hp -/(pA proofs) -/(pB proofs) -/(pC proofs).
cbn [ps_vkey ps_wkey ps_g_alpha ps_g_beta ps_h_alpha ps_h_beta].
set vkey := CKey _ _; set wkey := CKey _ _.
have hv n' : ck_has_correct_len vkey n' = (n == n').
  by rewrite /ck_has_correct_len /= !size_gen_powers; case: (n =P n') => [->|_] //=; rewrite eqxx.
have hw n' : ck_has_correct_len wkey n' = (n == n').
  by rewrite /ck_has_correct_len /= !size_gen_powers; case: (n =P n') => [->|_] //=; rewrite eqxx.
rewrite /com_pair /com_single !hv !hw sa sb sc eqxx [(_ && _)%N]/=; cbn [obnd].
set cab := (_, _); set cc := (_, _).
set tr0 := [:: _, _ & _]; set r := chal tr0.
have r0 : r != 0 by exact: chal0.
rewrite (scalar_powersE _ n0); set rv := gen_powers _ _ _.
have srv : size rv = n by exact: (size_gen_powers (V := [lmodType F of F^o])).
have rv0 : all (fun x => x != 0) rv.
  apply/(all_nthP 0) => i; rewrite srv => hi; rewrite (nth_gen_powers (V := [lmodType F of F^o])) //.
  by rewrite [_ *: 1]/GRing.scale /= mulr1 expf_neq0.
set br := [seq p.2 *: p.1 | p <- _].
have sbr : size br = n by rewrite size_map size_zip sb srv minnn.
rewrite /ck_scale hw size_map srv eqxx; cbn [obnd].
set wkr := CKey _ _.
rewrite /prove_tipp_mipp.
have -> : vget rv 1 = Some r.
  have -> : rv = gen_powers (V := [lmodType F of F^o]) 1 r (n - 2).+2 by rewrite /rv; congr gen_powers; slia.
  by rewrite /= /GRing.scale /= mulr1.
rewrite /gipa_tipp_mipp sa sbr srv sc n1 hp eqxx; cbn [obnd andb].
set tr1 := rcons _ _.
have wkrE : wkr = CKey (gen_powers (al ^+ n *: g) (al * r^-1) n) (gen_powers (be ^+ n *: g) (be * r^-1) n).
  by congr CKey; apply: scale_gen_powers.
have [|||||||o [ho [s1 s2 s3 s4 s5] [ho1 ho2] hch [hres hvk hwk]]] :=
  @gipa_loopP _ _ _ _ _ eb _ chal0 k n tr1 (pA proofs) br (pC proofs) rv vkey wkr; rewrite -?hk //.
- by rewrite hk ltnW // ltn_expl.
- by split; exact: size_gen_powers.
- by rewrite wkrE; split; exact: size_gen_powers.
rewrite ho; cbn [obnd].
set ch := rev (go_challenges o); set chi := rev (go_challenges_inv o).
have sch : size ch = k by rewrite size_rev ho1 size_map.
have schi : size chi = k by rewrite size_rev.
have nch : ch != [::] by rewrite -size_eq0 sch -lt0n.
have nchi : chi != [::] by rewrite -size_eq0 schi -lt0n.
have chi0 : all (fun x => x != 0) chi by rewrite all_rev.
set z := chal _.
rewrite /prove_commitment_v (polyseq_coefficients chi0).
have -> : size (coefficients_from_transcript chi 1) != 0%N by rewrite size_coefficients -lt0n expn_gt0.
rewrite eval_productE //; cbn [obnd].
rewrite -horner_coefficients prove_kzg_openingE ?size_coefficients ?schi //; cbn [obnd].
rewrite /prove_commitment_w !size_gen_powers.
have -> : ((n + n) %/ 2 = n)%N by rewrite addnn -muln2 mulnK.
rewrite [(2 * n)%N]mul2n -addnn eqxx eval_productE //; cbn [obnd].
set cw := _ ++ coefficients_from_transcript ch _.
have cwE x : (Poly cw).[x] = prodf (x * r^-1) ch * x ^+ n.
  rewrite horner_cat size_nseq horner_coefficients mulrC -[RHS]add0r; congr (_ + _).
  by elim: (n) => [|m IH] /=; rewrite ?horner0 // horner_cons IH mul0r addr0.
have scw : size cw = (n + n)%N by rewrite size_cat size_nseq size_coefficients sch -hk.
rewrite -cwE prove_kzg_openingE ?addn_gt0 ?n0 //; cbn [obnd].
have comE : (ip e (pA proofs) (ck_a vkey) + ip e (ck_a wkr) br, ip e (pA proofs) (ck_b vkey) + ip e (ck_b wkr) br) = cab.
  by rewrite /cab !ipE; congr (_ + _, _ + _); apply: ipg_scale2; rewrite ?size_gen_powers ?srv.
have hwr : ck_has_correct_len wkr n by rewrite wkrE /ck_has_correct_len /= !size_gen_powers eqxx.
rewrite hwr; cbn [obnd]; rewrite comE eqxx.
eexists; split; first by [].
- by cbn [ap_com_ab ap_com_c].
- cbn [ap_ip_ab]; rewrite /agg_r /agg_tr; cbn [ap_com_ab ap_com_c]; rewrite -/tr0 -/r.
  rewrite ipE (ipg_nth sa sbr); apply: eq_bigr => i _.
  rewrite /br (nth_map (0, 0)) ?size_zip ?sb ?srv ?minnn // nth_zip ?sb ?srv //=.
  by rewrite (e_scaler eb) (nth_gen_powers (V := [lmodType F of F^o])) // [_ *: 1]/GRing.scale /= mulr1.
- cbn [ap_agg_c]; rewrite /agg_r /agg_tr; cbn [ap_com_ab ap_com_c]; rewrite -/tr0 -/r.
  rewrite (@multiexpE _ _ _ _ n) ?sc ?leqnn //; apply: eq_bigr => i _.
  by rewrite (nth_gen_powers (V := [lmodType F of F^o])) // [_ *: 1]/GRing.scale /= mulr1.
rewrite /agg_r /agg_tr1 /agg_tr; cbn [ap_com_ab ap_com_c ap_ip_ab ap_agg_c]; rewrite -/tr0 -/r -/tr1.
rewrite /gipa_verify; cbn [ap_gipa gp_comms_ab gp_comms_c gp_z_ab gp_z_c ap_com_ab ap_com_c ap_ip_ab ap_agg_c].
rewrite -/tr1 hch s2 s3 s4 s5 eqxx; cbn [andb fst snd]; rewrite -ho1 gipa_res_merge tuz_merge0.
have -> : GipaTuz cab.1 cab.2 (ip e (pA proofs) br) cc.1 cc.2 (multiexp (pC proofs) rv)
   = tuz_of e (pA proofs) br (pC proofs) rv vkey wkr by rewrite /tuz_of -comE.
rewrite hres -/ch -/chi eval_productE // mulr1; cbn [obnd].
eexists; split; first by [].
rewrite /agg_z; cbn [ap_gipa gp_final_vkey gp_final_wkey]; rewrite -/z.
have -> : foldv (V := [lmodType F of F^o]) rv (go_challenges_inv o) = prodf r chi.
  rewrite /rv hk -{1}s1 foldv_gen_powers -/chi [_ *: 1]/GRing.scale /= mulr1 //.
apply/andP; split; first by cbn [tuz_fin tz_zc gp_final_c].
rewrite /check_defects; cbn [vs_g vs_h vs_g_alpha vs_g_beta vs_h_alpha vs_h_beta vs_n ap_gipa gp_final_a gp_final_b gp_final_c
  gp_final_vkey gp_final_wkey ap_vkey_opening ap_wkey_opening tuz_fin tz_tab tz_uab tz_zab tz_tc tz_uc fst snd].
rewrite !subrr hvk hwk wkrE; cbn [ck_a ck_b fst snd vkey].
have s1' : size (go_challenges o) = k by rewrite -sch size_rev.
have e1 : n = (2 ^ size (go_challenges o))%N by rewrite s1'.
have e2 : n = (2 ^ size (go_challenges_inv o))%N by rewrite s1.
have fw (x : G1) q : foldv (gen_powers x q n) (go_challenges o) = prodf q ch *: x by rewrite {1}e1 foldv_gen_powers.
have fv q : foldv (gen_powers h q n) (go_challenges_inv o) = prodf q chi *: h by rewrite {1}e2 foldv_gen_powers.
by rewrite !fw !fv !kzg_vE !kzg_wE /= eqxx.
Qed.
End Honest.
End Top.
