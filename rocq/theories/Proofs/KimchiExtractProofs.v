(** Extraction of the committed polynomial from the responses in the inner product argument. *)
From Coq Require Import Ring Field.
From mathcomp Require Import all_ssreflect all_algebra.
From Verif.Model Require Import Base OrderedMap Domain KnowledgeCommitment KimchiPedersen.
From Verif.Spec Require Import KimchiSpec KimchiExtractSpec.
From Verif.Proofs Require Import NatTac FieldTac KcProofs DomainProofs AggregateProofs KimchiProofs.
Set Implicit Arguments.
Unset Strict Implicit.
Unset Printing Implicit Defensive.
Import GRing.Theory.
Local Open Scope ring_scope.

Section Weights.
Variable F : fieldType.
Add Field Ff : (@ffield_theory F).
(** The weights that give the coefficient of X from three values of a polynomial of degree 2, times the point *)
Definition weight (x y z : F) : F := - (y + z) / ((x - y) * (x - z)) * x.
Lemma weights (x y z : F) : uniq [:: 0; x; y; z] -> let a := weight x y z in let b := weight y x z in let c := weight z x y in
  [/\ a + b + c = 1, a * x^-1 + b * y^-1 + c * z^-1 = 0 & a * x + b * y + c * z = 0].
Proof.
rewrite /= !inE !negb_or => /and4P[/and3P[]]; rewrite !(eq_sym 0) => x0 y0 z0 /andP[xy xz] yz _.
have dx : x - y != 0 by rewrite subr_eq0.
have dz : x - z != 0 by rewrite subr_eq0.
have dy : y - z != 0 by rewrite subr_eq0.
have dx' : y - x != 0 by rewrite subr_eq0 eq_sym.
have dz' : z - x != 0 by rewrite subr_eq0 eq_sym.
have dy' : z - y != 0 by rewrite subr_eq0 eq_sym.
by split; rewrite /weight; ffield F.
Qed.

Fixpoint extract (chals : seq F) (t : responses F) : {poly F} * F :=
  match t with
  | Last c z1 z2 c' z1' z2' => (((z1 - z1') / (c - c')) *: challenge_poly chals, (z2 - z2') / (c - c'))
  | Round x1 t1 x2 t2 x3 t3 =>
    let e1 := extract (rcons chals x1) t1 in let e2 := extract (rcons chals x2) t2 in let e3 := extract (rcons chals x3) t3 in
    let a := weight x1 x2 x3 in let b := weight x2 x1 x3 in let c := weight x3 x1 x2 in
    (a *: e1.1 + b *: e2.1 + c *: e3.1, a * e1.2 + b * e2.2 + c * e3.2)
  end.

Lemma size_challenge_poly (chals : seq F) : (size (challenge_poly chals) <= 2 ^ size chals)%N.
Proof. by rewrite -Poly_coefs (leq_trans (size_Poly _)) // size_coefs. Qed.

Lemma extract_size k : forall chals t, run_rounds k t -> (size (extract chals t).1 <= 2 ^ (size chals + k))%N.
Proof.
elim: k => [|k ih] chals [c z1 z2 c' z1' z2'|x1 t1 x2 t2 x3 t3] //=.
  by move=> _; rewrite addn0 (leq_trans (size_scale_leq _ _)) // size_challenge_poly.
move=> /and3P[h1 h2 h3]; have sz x t : run_rounds k t -> forall a, (size (a *: (extract (rcons chals x) t).1) <= 2 ^ (size chals + k.+1))%N.
  by move=> ht a; rewrite (leq_trans (size_scale_leq _ _)) // (leq_trans (ih _ _ ht)) // size_rcons addSnnS.
by rewrite (leq_trans (size_add _ _)) // geq_max sz // andbT (leq_trans (size_add _ _)) // geq_max !sz.
Qed.
End Weights.

Section Extract.
Variables (F : fieldType) (V : lmodType F) (g : seq V) (h u : V) (xi : F) (comms : seq V) (v : F) (points : seq F) (r : F).
Notation value := (combined_value points r).
Definition com (e : {poly F} * F) : V := pedersen g h e.1 e.2 + value e.1 *: u.
Lemma value_scale (a : F) p : value (a *: p) = a * value p.
Proof. by rewrite /combined_value mulr_sumr; apply: eq_bigr => j _; rewrite hornerZ mulrCA. Qed.
Lemma value_add p q : value (p + q) = value p + value q.
Proof. by rewrite /combined_value -big_split; apply: eq_bigr => j _; rewrite hornerD mulrDr. Qed.
Lemma com_scale a e : com (a *: e.1, a * e.2) = a *: com e.
Proof.
rewrite /com /pedersen value_scale /= !scalerDr !scalerA; congr (_ + _ + _).
by rewrite scaler_sumr; apply: eq_bigr => i _; rewrite coefZ scalerA.
Qed.
Lemma com_add e f : com (e.1 + f.1, e.2 + f.2) = com e + com f.
Proof.
rewrite /com /pedersen value_add /= !scalerDl.
have -> : \sum_(i < size g) (e.1 + f.1)`_i *: nth 0 g i = \sum_(i < size g) e.1`_i *: nth 0 g i + \sum_(i < size g) f.1`_i *: nth 0 g i.
  by rewrite -big_split; apply: eq_bigr => i _; rewrite coefD scalerDl.
by rewrite [LHS](AC (2*2*2) ((1*3*5)*(2*4*6))).
Qed.

Definition statement lr chals : V := power_sum xi comms + v *: u + \sum_(q <- zip lr chals) (q.2^-1 *: q.1.1 + q.2 *: q.1.2).
Lemma run_eq lr chals delta c z1 z2 : run_accepted g h u xi comms v points r lr chals delta c z1 z2 ->
  c *: statement lr chals + delta = com (z1 *: challenge_poly chals, z2).
Proof.
move=> [sg [/eqP e1 /eqP e2]]; move: e1 e2; rewrite /opening_defect subr_eq0 -/(statement lr chals) => /eqP ->; rewrite /base_defect subr_eq0 => /eqP <-.
rewrite /com /pedersen value_scale /= scalerDr scalerA addrAC; congr (_ + _ + _).
by rewrite scaler_sumr; apply: eq_bigr => i _; rewrite coefZ scalerA.
Qed.

(** The equations of a run in a form that computes *)
Lemma run_acceptedB lr chals delta c z1 z2 :
  c *: (hv comms xi + v *: u + foldr (fun q t => q.2^-1 *: q.1.1 + q.2 *: q.1.2 + t) 0 (zip lr chals)) + delta ==
    z1 *: (multiexp g (coefs chals) + peval [seq b_poly chals x | x <- points] r *: u) + z2 *: h ->
  run_accepted g h u xi comms v points r lr chals delta c z1 z2.
Proof.
move=> /eqP e; exists (multiexp g (coefs chals)); split; last first.
  rewrite /base_defect (@multiexpE _ _ _ _ (size g)) ?leqnn //; apply/eqP; rewrite subr_eq0; apply/eqP.
  by apply: eq_bigr => i _; rewrite coefs_nth.
apply/eqP; rewrite /opening_defect subr_eq0; apply/eqP.
have -> : combined_value points r (challenge_poly chals) = peval [seq b_poly chals x | x <- points] r.
  by rewrite pevalS size_map; apply: eq_bigr => j _; rewrite (nth_map 0) // b_polyE.
have <- : foldr (fun q t => q.2^-1 *: q.1.1 + q.2 *: q.1.2 + t) 0 (zip lr chals) = \sum_(q <- zip lr chals) (q.2^-1 *: q.1.1 + q.2 *: q.1.2).
  by elim: (zip lr chals) => [|q qs /= ->]; rewrite ?big_nil ?big_cons.
by rewrite power_sum_hv.
Qed.

Lemma extractE t : forall lr chals, size lr = size chals -> runs_accepted g h u xi comms v points r lr chals t ->
  statement lr chals = com (extract chals t).
Proof.
elim: t => [c z1 z2 c' z1' z2'|x1 t1 ih1 x2 t2 ih2 x3 t3 ih3] lr chals sz /=.
  move=> [cc [delta [/run_eq e /run_eq e']]]; have c0 : c - c' != 0 by rewrite subr_eq0.
  apply: (scalerI c0); rewrite scalerBl; have -> : c *: statement lr chals - c' *: statement lr chals =
    com (z1 *: challenge_poly chals, z2) - com (z1' *: challenge_poly chals, z2').
    by rewrite -e -e' opprD [RHS](AC (2*2) ((1*3)*(2*4))) /= subrr addr0.
  rewrite -com_scale /= scalerA ![(c - c') * _]mulrC !divfK // -[com (z1' *: _, _)]scale1r -scaleNr -com_scale -com_add /=.
  by rewrite scaleN1r mulN1r scalerBl.
move=> [hu [q [/ih1 e1 /ih2 e2 /ih3 e3]]]; rewrite !size_rcons sz in e1 e2 e3.
have {}e1 := e1 erefl; have {}e2 := e2 erefl; have {}e3 := e3 erefl.
have st x : statement (rcons lr q) (rcons chals x) = statement lr chals + (x^-1 *: q.1 + x *: q.2).
  by rewrite /statement zip_rcons // -cats1 big_cat big_seq1 /=; exact: addrA.
rewrite !st in e1 e2 e3; have := weights hu; move: (weight _ _ _) (weight _ _ _) (weight _ _ _) => c b a [w1 w2 w3].
have c3 e f e' : com (a *: e.1 + b *: f.1 + c *: e'.1, a * e.2 + b * f.2 + c * e'.2) = a *: com e + b *: com f + c *: com e'.
  by rewrite -!com_scale -!com_add.
rewrite c3 -e1 -e2 -e3; move: (statement lr chals) => T; rewrite !scalerDr !scalerA.
rewrite [RHS](AC ((1*2)*(1*2)*(1*2)) ((1*4*7)*(2*5*8)*(3*6*9))) /=.
by rewrite -!scalerDl w1 w2 w3 scale1r !scale0r !addr0.
Qed.
End Extract.

(** Bases padded with 0: coefficients of the padding are free *)
Section Padding.
Variables (F : fieldType) (V : lmodType F) (g : seq V) (h : V).
Variables (S : Type) (absorb_fr : S -> F -> S) (draw_u : S -> V * S) (absorb_g : S -> V -> S) (squeeze : S -> F * S).
Notation draws := (draws g absorb_fr draw_u absorb_g squeeze).
Definition claim (s : S) (p : seq F) (w x xi r v : F) (o : ipa_proof V) : batch V S :=
  Batch s [:: Evaluation (commitment g h p None [:: w] 0).1 [:: [:: v]] None] [:: x] xi r o.

Lemma claim_commitment p w : (0 < size p <= size g)%N -> pc_unshifted (commitment g h p None [:: w] 0).1 = [:: multiexp g p + w *: h].
Proof.
move=> /andP[p0 pg]; have g0 := leq_trans p0 pg; rewrite /commitment /= /segments.
have -> : ((size p + (size g).-1) %/ size g)%N = 1%N.
  by rewrite -(prednK p0) addSnnS prednK // divnDr ?dvdnn // divnn g0 divn_small // prednK.
by rewrite /= mul0n drop0 take_oversize.
Qed.

Lemma claim_draws s p w x xi r v o : draws (claim s p w x xi r v o) = Some (v, (draw_u (absorb_fr s v)).1,
  (ipa_challenges absorb_g squeeze (ip_lr o) (draw_u (absorb_fr s v)).2).1,
  (squeeze (absorb_g (ipa_challenges absorb_g squeeze (ip_lr o) (draw_u (absorb_fr s v)).2).2 (ip_delta o))).1).
Proof.
have e : combined_inner_product g [:: x] xi r [:: (Evaluation (commitment g h p None [:: w] 0).1 [:: [:: v]] None, None)] = Some v.
  by rewrite /combined_inner_product /= /cip_step /= !mulr0 addr0 add0r mul1r.
by rewrite /KimchiSpec.draws /= if_same e.
Qed.

Lemma claim_forged s p w x xi r v : (0 < size p <= size g)%N -> (size g < 2 ^ rounds g)%N -> x != 0 ->
  exists o, (size (ip_lr o) <= rounds g)%N /\ exists d : F * V * seq F * F, draws (claim s p w x xi r v o) = Some d /\
    (all (fun y => y != 0) d.1.2 -> batch_opening h (claim s p w x xi r v o) d = 0 /\ batch_base g (claim s p w x xi r v o) d = 0).
Proof.
move=> hp hg x0; set n := (2 ^ rounds g)%N; set t := (v - peval p x) / x ^+ size g.
have /andP[p0 pg] := hp; have hgn : (size g <= n)%N := ltnW hg.
set a := [seq if i == size g then t else nth 0 p i | i <- iota 0 n]; set bb := [seq b_entry r [:: x] i | i <- iota 0 n].
have sa : size a = n by rewrite size_map size_iota.
have sbb : size bb = n by rewrite size_map size_iota.
have na i : (i < n)%N -> nth 0 a i = if i == size g then t else nth 0 p i by move=> hi; rewrite (nth_map 0%N) ?size_iota // nth_iota.
have nbb (k : 'I_n) : nth 0 bb k = b_entry r [:: x] k by rewrite (nth_map 0%N) ?size_iota // nth_iota.
have bx k : b_entry r [:: x] k = x ^+ k by rewrite b_entryE big_ord_recl big_ord0 /= expr0 mul1r addr0.
have ein : inner a bb = v.
  rewrite (@innerE _ _ _ n) ?sbb ?leqnn ?orbT //.
  rewrite (bigD1 (Ordinal hg)) // nbb bx na //= eqxx divfK ?expf_neq0 //.
  have -> : peval p x = \sum_(i < n | i != Ordinal hg) nth 0 a i * nth 0 bb i; last by rewrite subrK.
  have -> : peval p x = \sum_(k < n) nth 0 p k * x ^+ k.
    rewrite pevalE (@horner_coef_wide _ n) ?(leq_trans (size_Poly _)) ?(leq_trans pg) //.
    by apply: eq_bigr => k _; rewrite coef_Poly.
  rewrite (bigD1 (Ordinal hg)) //= [nth 0 p (size g)]nth_default // mul0r add0r; apply: eq_bigr => k hk.
  by rewrite na // nbb bx ifN.
have eme : multiexp (pad 0 g n) a = multiexp g p.
  rewrite (@multiexpE _ _ (pad 0 g n) a n) ?pad_size ?sa ?leqnn // (@multiexpE _ _ g p n) ?hgn //; apply: eq_bigr => k _.
  rewrite nth_pad na //; case: eqP => // ->; by rewrite [nth 0 g _]nth_default // !scaler0.
case ud: (draw_u (absorb_fr s v)) => [u s1].
move: (@ipa_roundsE _ _ h _ absorb_g squeeze u (rounds g) (nseq (rounds g) (0, 0)) (pad 0 g n) a bb s1 (pad_size 0 hgn) sa sbb (size_nseq _ _)).
have := @rounds_size _ _ h _ absorb_g squeeze u (rounds g) (nseq (rounds g) (0, 0)) (pad 0 g n) a bb s1.
have := @rounds_challenges _ _ h _ absorb_g squeeze u (rounds g) (nseq (rounds g) (0, 0)) (pad 0 g n) a bb s1.
case: (ipa_rounds _ _ _ _ _ _ _ _ _) => [[[lr chals] [[a0 b0] g0]] s2] /= ech szc H.
have szl : size lr = rounds g by rewrite -szc -(ipa_challenges_size absorb_g squeeze lr s1) ech.
set c := (squeeze (absorb_g s2 0)).1; set R := \sum_(q <- zip (nseq (rounds g) (0 : F, 0 : F)) chals) (q.1.1 / q.2 + q.1.2 * q.2).
exists (IpaProof lr 0 (a0 * c) (c * (w + R)) g0); split; first by rewrite /= szl.
rewrite claim_draws ud /= ech /=; eexists; split; first by [].
rewrite /= => hc; have [_ _ e3 e4 e5] := H hc; split; last first.
  rewrite /batch_base /base_defect /= e3 (@multiexpE _ _ (pad 0 g n) _ n) ?pad_size ?leqnn //; apply/eqP; rewrite subr_eq0; apply/eqP.
  have -> : \sum_(i < size g) (challenge_poly chals)`_i *: nth 0 g i = multiexp g (coefs chals).
    by rewrite (@multiexpE _ _ _ _ (size g)) ?leqnn //; apply: eq_bigr => i _; rewrite coefs_nth.
  by rewrite (@multiexpE _ _ g _ n) ?hgn //; apply: eq_bigr => k _; rewrite nth_pad.
rewrite /batch_opening /opening_defect; cbn [claim bt_evaluation bt_points bt_xi bt_r bt_opening ip_lr ip_delta ip_z1 ip_z2 ip_sg].
have -> : \sum_(j < size [:: x]) r ^+ j * (challenge_poly chals).[nth 0 [:: x] j] = b0.
  rewrite big_ord_recl big_ord0 /= expr0 mul1r addr0 e4 (@innerE _ _ _ n) ?sbb ?leqnn ?orbT //.
  rewrite (@horner_coef_wide _ n) ?(leq_trans (size_challenge_poly _)) ?szc //.
  by apply: eq_bigr => k _; rewrite coefs_nth nbb bx.
have -> : power_sum xi (checked_commitments [:: Evaluation (commitment g h p None [:: w] 0).1 [:: [:: v]] None]) = multiexp g p + w *: h.
  have := claim_commitment w hp; case: (commitment g h p None [:: w] 0).1 => U sh /= ->.
  by rewrite /checked_commitments /= /power_sum big_ord_recl big_ord0 /= expr0 scale1r addr0.
rewrite eme ein in e5; have al : forall (M B w L Q : V), M + w + L = Q -> M + B + w + L = Q + B.
  by move=> M B w' L Q <-; rewrite -!addrA; congr (_ + _); rewrite addrC -addrA.
rewrite (al _ _ _ _ _ e5) -/R -/c addr0; move: (g0 + b0 *: u) => X.
apply/eqP; rewrite subr_eq0 [a0 * c]mulrC mulrDr !scalerDl !scalerDr !scalerA; apply/eqP.
by rewrite -!addrA; congr (_ + _); rewrite addrC.
Qed.
End Padding.
