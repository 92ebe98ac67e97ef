(** The Kimchi polynomial commitment: proofs for C59. *)
From mathcomp Require Import all_ssreflect all_algebra ssrAC.
From Verif.Model Require Import Base OrderedMap Domain KnowledgeCommitment KimchiPedersen.
From Verif.Spec Require Import KimchiSpec.
From Verif.Proofs Require Import NatTac FieldTac KcProofs DomainProofs AggregateProofs.
Set Implicit Arguments.
Unset Strict Implicit.
Unset Printing Implicit Defensive.
Import GRing.Theory.
Local Open Scope ring_scope.

Section Scalars.
Variable F : fieldType.
Add Field Ff_kimchi : (@ffield_theory F).

Lemma innerE (a b : seq F) n : (size a <= n)%N || (size b <= n)%N -> inner a b = \sum_(i < n) nth 0 a i * nth 0 b i.
Proof.
rewrite /inner; elim: a b n => [|x a ih] [|y b] [|n] //= h; rewrite ?big_ord0 //.
- by rewrite big1 // => i _; rewrite nth_nil mul0r.
- by rewrite big1 // => i _; rewrite nth_nil mul0r.
- by rewrite big1 // => i _; rewrite nth_nil mulr0.
- by rewrite big_ord_recl (ih _ n).
Qed.

(** The coefficients of the polynomial of the challenges *)
Fixpoint coefs (xs : seq F) : seq F := if xs is x :: xs' then coefs xs' ++ [seq c * x | c <- coefs xs'] else [:: 1].
Lemma size_coefs xs : size (coefs xs) = (2 ^ size xs)%N.
Proof. by elim: xs => //= x xs ih; rewrite size_cat size_map ih addnn -mul2n expnS. Qed.
Lemma Poly_coefs xs : Poly (coefs xs) = challenge_poly xs.
Proof.
elim: xs => [|x xs ih] /=; first by rewrite cons_poly_def mul0r add0r.
rewrite -ih; apply/polyP => i; rewrite mulrDl mul1r coefD !coef_Poly nth_cat size_coefs -scalerAl coefZ coefXnM coef_Poly.
case: ltnP => h; first by rewrite mulr0 addr0.
rewrite [X in _ = X + _]nth_default ?size_coefs // add0r; case: (ltnP (i - 2 ^ size xs) (size (coefs xs))) => h2.
  by rewrite (nth_map 0) // mulrC.
by rewrite !nth_default ?size_map // mulr0.
Qed.
Lemma coefs_nth xs i : nth 0 (coefs xs) i = (challenge_poly xs)`_i.
Proof. by rewrite -Poly_coefs coef_Poly. Qed.

Lemma b_polyE (chals : seq F) x : b_poly chals x = (challenge_poly chals).[x].
Proof.
rewrite /b_poly; have fl : forall (f : nat -> F) s z, foldl (fun res i => res * f i) z s = z * \prod_(i <- s) f i.
  by move=> f; elim=> [|i s ih] z /=; [rewrite big_nil mulr1|rewrite ih big_cons mulrA].
rewrite fl mul1r; elim: chals => [|c cs ih]; first by rewrite big_nil hornerC.
rewrite [size _]/= -[iota 0 (size cs).+1]/(0%N :: iota 1 (size cs)) big_cons [RHS]/= hornerM hornerD hornerC hornerZ hornerXn.
rewrite subn1 subn0; congr (_ * _); rewrite -ih (iotaDl 1 0) big_map; apply: eq_big_seq => i; rewrite mem_iota => /andP[_ hi].
by rewrite [nth 0 _ _]/= succnK subnDA.
Qed.

(** The loop of b_poly_coefficents *)
Lemma coef_step0 (chals s : seq F) j :
  coefficients_step chals (j, (2 ^ j)%N, s) (2 ^ j) = (j.+1, (2 ^ j.+1)%N, set_nth 0 s (2 ^ j) (nth 0 s 0 * nth 0 chals (size chals - 1 - j))).
Proof. by rewrite /coefficients_step eqxx mulKn // subnn subn1 -expnS [(j.+1 - 1)%N]subn1. Qed.
Lemma coef_stepS (chals s : seq F) j t : (0 < t < 2 ^ j)%N -> coefficients_step chals (j.+1, (2 ^ j.+1)%N, s) (2 ^ j + t) =
  (j.+1, (2 ^ j.+1)%N, set_nth 0 s (2 ^ j + t) (nth 0 s t * nth 0 chals (size chals - 1 - j))).
Proof.
move=> /andP[_ ht].
have nj : (2 ^ j + t == 2 ^ j.+1)%N = false by rewrite expnS mul2n -addnn eqn_add2l; apply/negbTE; rewrite neq_ltn ht.
have hd : (2 ^ j.+1 %/ 2 = 2 ^ j)%N by rewrite expnS mulKn.
by rewrite /coefficients_step nj hd addKn [(j.+1 - 1)%N]subn1.
Qed.
Lemma coef_block (chals s : seq F) j t : (0 < t <= 2 ^ j)%N -> (2 ^ j.+1 <= size s)%N ->
  exists s', [/\ foldl (coefficients_step chals) (j, (2 ^ j)%N, s) (iota (2 ^ j) t) = (j.+1, (2 ^ j.+1)%N, s'), size s' = size s &
    forall i, nth 0 s' i = if (2 ^ j <= i < 2 ^ j + t)%N then nth 0 s (i - 2 ^ j) * nth 0 chals (size chals - 1 - j) else nth 0 s i].
Proof.
move=> /andP[t0 ht] hs; have hs2 : (2 ^ j + 2 ^ j <= size s)%N by rewrite addnn -mul2n -expnS.
elim: t t0 ht => // t ih _ ht; case: t ih ht => [|t] ih ht.
  rewrite -[foldl _ _ _]/(coefficients_step chals (j, (2 ^ j)%N, s) (2 ^ j)%N) coef_step0; eexists; split; [reflexivity| |].
    by rewrite size_set_nth; apply/maxn_idPr; apply: leq_trans hs2; rewrite -addn1 leq_add2l expn_gt0.
  move=> i; rewrite nth_set_nth /= addn1 ltnS; case: eqP => [->|/eqP ne]; first by rewrite leqnn subnn.
  by rewrite -eqn_leq eq_sym (negbTE ne).
have [s' [e1 e2 e3]] := ih isT (ltnW ht).
rewrite -[t.+2]addn1 iotaD foldl_cat e1 -[foldl _ _ _]/(coefficients_step chals (j.+1, (2 ^ j.+1)%N, s') (2 ^ j + t.+1)%N).
rewrite coef_stepS //; eexists; split; [reflexivity| |].
  rewrite size_set_nth e2; apply/maxn_idPr; apply: leq_trans hs2; by rewrite -addnS leq_add2l.
have e4 : nth 0 s' t.+1 = nth 0 s t.+1 by rewrite e3 leqNgt ht.
move=> i; rewrite nth_set_nth [LHS]/= e4 e3; case: eqP => [->|/eqP ne].
  by rewrite leq_addr /= addKn addnA addn1 ltnSn.
by rewrite addnA addn1 [(i < (2 ^ j + t.+1).+1)%N]ltnS [(i <= _)%N]leq_eqVlt (negbTE ne).
Qed.
Lemma coef_loop (chals : seq F) j : (j <= size chals)%N ->
  exists s', [/\ foldl (coefficients_step chals) (0%N, 1%N, nseq (2 ^ size chals) 1) (iota 1 (2 ^ j - 1)) = (j, (2 ^ j)%N, s'),
    size s' = (2 ^ size chals)%N & forall i, (i < 2 ^ j)%N -> nth 0 s' i = nth 0 (coefs (drop (size chals - j) chals)) i].
Proof.
elim: j => [|j ih] hj.
  exists (nseq (2 ^ size chals) 1); split=> //; first by rewrite size_nseq.
  by case=> // _; rewrite subn0 drop_size nth_nseq expn_gt0.
have [s [e1 e2 e3]] := ih (ltnW hj).
have hp : (2 ^ j.+1 <= size s)%N by rewrite e2 leq_exp2l.
have := @coef_block chals s j (2 ^ j); rewrite expn_gt0 leqnn => /(_ isT hp)[s' [f1 f2 f3]].
exists s'; have -> : (2 ^ j.+1 - 1 = (2 ^ j - 1) + 2 ^ j)%N by rewrite addnBAC ?expn_gt0 // addnn -mul2n -expnS.
rewrite iotaD foldl_cat e1 subnKC ?expn_gt0 // f1 f2; split=> // i hi; rewrite f3.
rewrite (drop_nth 0) ?ltn_subrL ?(leq_trans _ hj) // -subSn // subSS [coefs _]/= nth_cat size_coefs size_drop subKn ?(ltnW hj) //.
rewrite -subnDA add1n.
have -> : (i < 2 ^ j + 2 ^ j)%N by rewrite addnn -mul2n -expnS.
rewrite andbT; case: (ltnP i (2 ^ j)) => h; first exact: e3.
have h2 : (i - 2 ^ j < 2 ^ j)%N by rewrite ltn_subLR // addnn -mul2n -expnS.
by rewrite /= (nth_map 0) ?size_coefs ?size_drop ?subKn ?(ltnW hj) // e3.
Qed.
Lemma b_poly_coefficientsE (chals : seq F) : b_poly_coefficients chals = coefs chals.
Proof.
rewrite /b_poly_coefficients; have [s [-> e2 e3]] := coef_loop (leqnn (size chals)).
apply: (@eq_from_nth _ 0); first by rewrite e2 size_coefs.
by move=> i; rewrite e2 => hi; rewrite e3 // subnn drop0.
Qed.

Lemma power_fold (T : Type) (f : T -> F) r (es : seq T) : forall st : F * F,
  (foldl (fun (st : F * F) e => (st.1 + st.2 * f e, st.2 * r)) st es).1 = st.1 + st.2 * peval [seq f e | e <- es] r.
Proof.
elim: es => [|e es ih] [a b] /=; first by rewrite mulr0 addr0.
by rewrite ih /=; fring F.
Qed.
End Scalars.

Section Group.
Variables (F : fieldType) (V : lmodType F) (g : seq V) (h : V).
Add Field Ff_kimchi2 : (@ffield_theory F).
Variables (S : Type) (absorb_fr : S -> F -> S) (draw_u : S -> V * S) (absorb_g : S -> V -> S) (squeeze : S -> F * S).
Notation draws := (draws g absorb_fr draw_u absorb_g squeeze).
Notation verify_step := (verify_step g absorb_fr draw_u absorb_g squeeze).

Lemma multiexp_cat (ps qs : seq V) (cs ds : seq F) : size ps = size cs -> multiexp (ps ++ qs) (cs ++ ds) = multiexp ps cs + multiexp qs ds.
Proof. by elim: ps cs => [|p ps ih] [|c cs] //=; [rewrite add0r|move=> [/ih ->]; rewrite addrA]. Qed.
Lemma multiexp_same n (ps ps' : seq V) (cs cs' : seq F) : size ps = n -> size ps' = n ->
  (forall i, (i < n)%N -> nth 0 cs i *: nth 0 ps i = nth 0 cs' i *: nth 0 ps' i) -> multiexp ps cs = multiexp ps' cs'.
Proof. by move=> h1 h2 he; rewrite !(@multiexpE _ _ _ _ n) ?h1 ?h2 ?leqnn //; apply: eq_bigr => i _; apply: he. Qed.
Lemma pevalS (s : seq F) x : peval s x = \sum_(j < size s) x ^+ j * nth 0 s j.
Proof.
elim: s => [|a s ih] /=; first by rewrite big_ord0.
rewrite big_ord_recl expr0 mul1r ih mulr_sumr; congr (_ + _); apply: eq_bigr => i _; by rewrite exprS mulrA.
Qed.

Lemma ipa_challenges_size lr s : size (ipa_challenges absorb_g squeeze lr s).1 = size lr.
Proof.
by elim: lr s => [|q lr ih] s //=; case: (squeeze _) => x s1; have := ih s1; case: (ipa_challenges _ _ _ _) => xs s2 /= ->.
Qed.

Lemma powers_sum (c xi : F) (comms : seq V) :
  multiexp comms [seq c * xi ^+ i | i <- iota 0 (size comms)] = c *: power_sum xi comms.
Proof.
rewrite (@multiexpE _ _ _ _ (size comms)) ?leqnn // /power_sum scaler_sumr; apply: eq_bigr => i _.
by rewrite (nth_map 0%N) ?size_iota // nth_iota // scalerA.
Qed.
Lemma lr_sum (c : F) (lr : seq (V * V)) (chals : seq F) : size lr = size chals ->
  multiexp (flatten [seq [:: q.1; q.2] | q <- lr]) (flatten [seq [:: c * x^-1; c * x] | x <- chals]) =
  c *: \sum_(q <- zip lr chals) (q.2^-1 *: q.1.1 + q.2 *: q.1.2).
Proof.
elim: lr chals => [|[l r] lr ih] [|x chals] //=; first by rewrite big_nil scaler0.
by move=> [/ih ->]; rewrite big_cons !scalerDr !scalerA addrA.
Qed.

(** The scalars of the points h, g and of the earlier batches *)
Lemma first_block (points : seq V) (scalars co : seq F) (sg : V) (x sb y : F) : size points = size scalars -> (size co < size points)%N ->
  (forall i, (i <= size co)%N -> nth 0 points i = nth 0 (h :: g) i) ->
  let sc := [seq nth 0 (rcons scalars x) i + (if (0 < i <= size co)%N then nth 0 co i.-1 * sb else 0) | i <- iota 0 (size (rcons scalars x))] in
  multiexp (rcons points sg) (set_nth 0 sc 0 (nth 0 sc 0 - y)) = multiexp points scalars + x *: sg + sb *: multiexp g co - y *: h.
Proof.
move=> hs hc hp sc; have hn i : (i < (size points).+1)%N -> nth 0 (set_nth 0 sc 0 (nth 0 sc 0 - y)) i =
    nth 0 (rcons scalars x) i + (if (0 < i <= size co)%N then nth 0 co i.-1 * sb else 0) + (if i == 0%N then - y else 0).
  move=> hi; have hsc j : (j < (size points).+1)%N -> nth 0 sc j = nth 0 (rcons scalars x) j + (if (0 < j <= size co)%N then nth 0 co j.-1 * sb else 0).
    by move=> hj; rewrite (nth_map 0%N) ?size_iota ?size_rcons -?hs // nth_iota ?size_rcons -?hs.
  by rewrite nth_set_nth /=; case: eqP => [->|_]; rewrite ?hsc ?addr0.
rewrite (@multiexpE _ _ _ _ (size points).+1) ?size_rcons ?leqnn //.
rewrite (eq_bigr (fun i : 'I_(size points).+1 => nth 0 (rcons scalars x) i *: nth 0 (rcons points sg) i +
    (if (0 < i <= size co)%N then nth 0 co i.-1 * sb else 0) *: nth 0 (rcons points sg) i +
    (if i == 0%N :> nat then - y else 0) *: nth 0 (rcons points sg) i)); last first.
  by move=> i _; rewrite hn ?ltn_ord // !scalerDl.
rewrite !big_split; congr (_ + _ + _).
- by rewrite -(@multiexpE _ _ _ _ (size points).+1) ?size_rcons ?leqnn // multiexp_rcons.
- rewrite big_ord_recl /= scale0r add0r (@multiexpE _ _ _ _ (size points)) ?(ltnW hc) ?orbT // scaler_sumr; apply: eq_bigr => i _.
  rewrite /bump leq0n add1n /=; case: ltnP => hi; last by rewrite [nth 0 co i]nth_default // !scale0r scaler0.
  by rewrite nth_rcons (leq_ltn_trans hi hc) hp // scalerA mulrC.
rewrite big_ord_recl /= big1 ?addr0; last by move=> i _; rewrite scale0r.
by rewrite nth_rcons (leq_ltn_trans _ hc) // hp // scaleNr.
Qed.

Lemma step_alg (M sg B u L P delta : V) (rb sb z1 z2 b0 c v : F) :
  M + (- rb * z1 - sb) *: sg + sb *: B - (rb * z2) *: h +
    ((- rb * z1 * b0) *: u + ((c * rb) *: L + ((c * rb) *: P + ((c * rb * v) *: u + (rb *: delta + 0))))) =
  M + (rb *: (c *: (P + v *: u + L) + delta - (z1 *: (sg + b0 *: u) + z2 *: h)) + sb *: (B - sg)).
Proof.
rewrite addr0 ![c * rb]mulrC !mulNr scalerBl !scalerBr !scalerDr !scalerA ?mulrA !scaleNr !opprD.
by rewrite [LHS](AC ((1*2*1*1)*(1*(1*(1*2)))) (1*((((8*9*7)*10)*((2*6)*5))*(4*3)))).
Qed.

Lemma verify_stepE rho sigma points scalars rb sb (b : batch V S) : size points = size scalars -> ((2 ^ rounds g).+1 <= size points)%N ->
  (forall i, (i <= 2 ^ rounds g)%N -> nth 0 points i = nth 0 (h :: g) i) -> (size (ip_lr (bt_opening b)) <= rounds g)%N ->
  if draws b is Some d then exists ps cs, [/\ verify_step rho sigma (points, scalars, rb, sb) b = Some (ps, cs, rb * rho, sb * sigma),
    size ps = size cs, ((2 ^ rounds g).+1 <= size ps)%N, (forall i, (i <= 2 ^ rounds g)%N -> nth 0 ps i = nth 0 (h :: g) i) &
    multiexp ps cs = multiexp points scalars + (rb *: batch_opening h b d + sb *: batch_base g b d)]
  else verify_step rho sigma (points, scalars, rb, sb) b = None.
Proof.
move=> hs hn hp hl; rewrite /draws /KimchiPedersen.verify_step.
case: (combined_inner_product _ _ _ _ _) => [v|] //; cbn [obnd].
case: (draw_u _) => u s1 /=; have := ipa_challenges_size (ip_lr (bt_opening b)) s1.
case: (ipa_challenges _ _ _ _) => chals s2 /= hsz; case: (squeeze _) => c s3 /=.
set o := bt_opening b; rewrite -/o in hl hsz.
have sco : size (b_poly_coefficients chals) = (2 ^ size (ip_lr o))%N by rewrite b_poly_coefficientsE size_coefs hsz.
have lco : (size (b_poly_coefficients chals) <= 2 ^ rounds g)%N by rewrite sco leq_exp2l.
have hg : (size (b_poly_coefficients chals) < size (rcons scalars (- rb * ip_z1 o - sb)%R))%N.
  by rewrite size_rcons ltnS -hs; exact: leq_trans lco (ltnW hn).
rewrite hg; eexists; eexists; split; [reflexivity| | | |].
- rewrite !size_cat !size_rcons size_set_nth size_map size_iota /= !size_cat !size_map size_iota hs (maxn_idPr _) //=.
  congr (_ + _.+1)%N; congr (_ + _)%N.
  by elim: (ip_lr o) chals hsz {sco lco hg} => [|q lr ih] [|x chals] //= [/ih ->].
- by rewrite size_cat size_rcons (leq_trans hn) // addSn ltnW // ltnS leq_addr.
- move=> i hi; rewrite -cats1 -catA nth_cat (leq_trans _ hn) //; exact: hp.
rewrite multiexp_cat; last by rewrite size_set_nth size_map size_iota !size_rcons hs (maxn_idPr _).
have hsc : (size (b_poly_coefficients chals) < size points)%N by apply: leq_ltn_trans lco hn.
rewrite first_block //; last by move=> i hi; apply: hp; apply: leq_trans lco.
cbn [multiexp]; rewrite multiexp_cat; last first.
  by elim: (ip_lr o) chals hsz {sco lco hg hsc} => [|q lr ih] [|x chals] //= [/ih ->].
rewrite multiexp_cat ?size_map ?size_iota // lr_sum ?hsz // powers_sum; cbn [multiexp].
have hb : (foldl (fun (st : F * F) e => (st.1 + st.2 * b_poly chals e, st.2 * bt_r b)) (0, 1) (bt_points b)).1 =
    \sum_(j < size (bt_points b)) bt_r b ^+ j * (challenge_poly chals).[nth 0 (bt_points b) j].
  rewrite (power_fold (b_poly chals)) /= add0r mul1r pevalS size_map; apply: eq_bigr => j _.
  by rewrite (nth_map 0) // b_polyE.
have hm : multiexp g (b_poly_coefficients chals) = \sum_(i < size g) (challenge_poly chals)`_i *: nth 0 g i.
  by rewrite b_poly_coefficientsE (@multiexpE _ _ _ _ (size g)) ?leqnn //; apply: eq_bigr => i _; rewrite coefs_nth.
rewrite hb hm /opening_defect /batch_base /base_defect /= -/o; exact: step_alg.
Qed.

Lemma power_sum_hv t (xs : seq V) : power_sum t xs = hv xs t.
Proof. by rewrite hvE. Qed.

Lemma verify_fold rho sigma (bs : seq (batch V S)) ds : [seq draws b | b <- bs] = [seq Some d | d <- ds] ->
  all (fun b => size (ip_lr (bt_opening b)) <= rounds g)%N bs ->
  forall points scalars rb sb, size points = size scalars -> ((2 ^ rounds g).+1 <= size points)%N ->
  (forall i, (i <= 2 ^ rounds g)%N -> nth 0 points i = nth 0 (h :: g) i) ->
  exists ps cs rb' sb', ofold (verify_step rho sigma) (points, scalars, rb, sb) bs = Some (ps, cs, rb', sb') /\
    multiexp ps cs = multiexp points scalars + (rb *: hv [seq batch_opening h q.1 q.2 | q <- zip bs ds] rho
      + sb *: hv [seq batch_base g q.1 q.2 | q <- zip bs ds] sigma).
Proof.
elim: bs ds => [|b bs ih] [|d ds] //.
  by move=> _ _ points scalars rb sb _ _ _; exists points, scalars, rb, sb; rewrite !scaler0 !addr0.
case=> hd hds /andP[hl hls] points scalars rb sb hs hn hp.
have := @verify_stepE rho sigma points scalars rb sb b hs hn hp hl; rewrite hd => -[ps [cs [e1 e2 e3 e4 e5]]].
have [ps' [cs' [rb' [sb' [f1 f2]]]]] := ih ds hds hls ps cs (rb * rho) (sb * sigma) e2 e3 e4.
exists ps', cs', rb', sb'; split; first by rewrite -f1 -[LHS]/(obnd (verify_step rho sigma (points, scalars, rb, sb) b) (fun st => ofold (verify_step rho sigma) st bs)) e1.
cbn [zip map hv fst snd]; rewrite f2 e5; move: (batch_opening h b d) (batch_base g b d) => X Y.
by rewrite !scalerDr !scalerA -!addrA; congr (_ + _); congr (_ + _); exact: addrCA.
Qed.

Lemma pad_size (A : Type) (x : A) (s : seq A) n : (size s <= n)%N -> size (pad x s n) = n.
Proof. by move=> hn; rewrite size_cat size_nseq subnKC. Qed.
Lemma doublings_ge fuel p n : (0 < p)%N -> (n <= p + fuel)%N -> (n <= 2 ^ doublings fuel p n * p)%N.
Proof.
elim: fuel p => [|f ih] p hp hn /=; first by rewrite mul1n -[p]addn0.
case: ltnP => h2; last by rewrite mul1n.
rewrite expnS mulnAC [(_ * p)%N]mulnC mulnC -[(p * 2)%N]mulnC; apply: ih; first by rewrite muln_gt0.
apply: leq_trans hn _; rewrite mul2n -addnn -addnA leq_add2l; clear -hp; slia.
Qed.
Lemma doublings_le fuel p n k : (n <= 2 ^ k * p)%N -> (doublings fuel p n <= k)%N.
Proof.
elim: fuel p k => // f ih p [|k] /= hn; first by rewrite ltnNge -[p]mul1n hn.
by case: ltnP => // _; rewrite ltnS; apply: ih; rewrite mulnA -expnSr.
Qed.
Lemma rounds_least k : (size g <= 2 ^ k)%N -> (rounds g <= k)%N.
Proof. by move=> hk; apply: doublings_le; rewrite muln1. Qed.
Lemma rounds_ge : (size g <= 2 ^ rounds g)%N.
Proof. by have := @doublings_ge (size g) 1 (size g); rewrite muln1 add1n leqnSn => /(_ isT isT). Qed.

Lemma ipa_verifyE rho sigma (bs : seq (batch V S)) ds : [seq draws b | b <- bs] = [seq Some d | d <- ds] ->
  all (fun b => size (ip_lr (bt_opening b)) <= rounds g)%N bs ->
  ipa_verify g h absorb_fr draw_u absorb_g squeeze rho sigma bs =
  Some (power_sum rho [seq batch_opening h q.1 q.2 | q <- zip bs ds] + power_sum sigma [seq batch_base g q.1 q.2 | q <- zip bs ds] == 0).
Proof.
move=> hd hl; rewrite /ipa_verify.
have sp : size (pad 0 (h :: g) (2 ^ rounds g).+1) = (2 ^ rounds g).+1 by apply: pad_size; rewrite ltnS rounds_ge.
have [|||ps [cs [rb [sb [-> e]]]]] := @verify_fold rho sigma bs ds hd hl (pad 0 (h :: g) (2 ^ rounds g).+1) (nseq (2 ^ rounds g).+1 0) 1 1.
- by rewrite sp size_nseq.
- by rewrite sp.
- move=> i hi; rewrite /pad nth_cat; case: ltnP => // hi2; rewrite nth_nseq if_same [RHS]nth_default //.
rewrite [obnd _ _]/= e !power_sum_hv !scale1r (@multiexpE _ _ _ _ (2 ^ rounds g).+1) ?sp ?leqnn // big1 ?add0r //.
by move=> i _; rewrite nth_nseq if_same scale0r.
Qed.

Lemma separate (xs ys : seq V) (rs ts : seq F) : size xs = size ys -> (0 < size xs)%N -> uniq rs -> uniq ts ->
  (size xs <= size rs)%N -> (size xs <= size ts)%N ->
  {in rs & ts, forall rho sigma, power_sum rho xs + power_sum sigma ys = 0} ->
  nth 0 xs 0 + nth 0 ys 0 = 0 /\ forall i, (0 < i)%N -> nth 0 xs i = 0 /\ nth 0 ys i = 0.
Proof.
case: xs ys => [|x xs] [|y ys] //= [hsz] _ ur ut hr ht hz.
have hx t : t \in ts -> all (fun v => v == 0) (x + hv (y :: ys) t :: xs).
  move=> tin; apply: (vandermonde ur) => // rho rin /=; have := hz _ _ rin tin.
  by rewrite !power_sum_hv /= [in X in X -> _](AC (2*2) (1*(3*4)*2)).
have x0 : all (fun v => v == 0) xs by case: (ts) ht hx => // t ts' _ /(_ t); rewrite inE eqxx /= => /(_ isT)/andP[].
have hy : all (fun v => v == 0) (x + y :: ys).
  by apply: (vandermonde ut); rewrite /= -?hsz // => t /hx/andP[/eqP] /=; rewrite addrA.
move: hy => /= /andP[/eqP e y0]; split=> // -[|i] // _ /=.
by split; [case: (ltnP i (size xs)) => hi; [exact/eqP/(all_nthP 0 x0)|rewrite nth_default]
          |case: (ltnP i (size ys)) => hi; [exact/eqP/(all_nthP 0 y0)|rewrite nth_default]].
Qed.

(** The prover *)
Lemma multiexp_fold (W : lmodType F) (x : F) : x != 0 -> forall (gh gl : seq W) (ah al : seq F), size gl = size gh -> size ah = size gh -> size al = size gh ->
  multiexp [seq x *: q.1 + q.2 | q <- zip gh gl] [seq q.1 * x^-1 + q.2 | q <- zip ah al] =
  multiexp gl al + multiexp gh ah + (x *: multiexp gh al + x^-1 *: multiexp gl ah).
Proof.
move=> x0; elim=> [|p gh ih] [|p' gl] [|a ah] [|a' al] //=; first by rewrite !scaler0 !addr0.
move=> [h1] [h2] [h3]; rewrite ih // !scalerDl !scalerDr !scalerA mulfVK // [x * a']mulrC [x^-1 * a]mulrC.
by rewrite [LHS](AC ((2*2)*(2*2)) ((4*5)*(1*6)*((3*7)*(2*8)))).
Qed.
Lemma inner_regular (a b : seq F) : inner a b = multiexp (b : seq (GRing.regular_lmodType F)) a.
Proof. by rewrite /inner; elim: a b => [|x a ih] [|y b] //=; rewrite ih. Qed.
Lemma inner_fold (x : F) (ah al bh bl : seq F) : x != 0 -> size bl = size bh -> size ah = size bh -> size al = size bh ->
  inner [seq q.1 * x^-1 + q.2 | q <- zip ah al] [seq q.1 * x + q.2 | q <- zip bh bl] =
  inner al bl + inner ah bh + (x * inner al bh + x^-1 * inner ah bl).
Proof.
move=> x0 h1 h2 h3; rewrite !inner_regular; apply: etrans (@multiexp_fold (GRing.regular_lmodType F) x x0 bh bl ah al h1 h2 h3).
by congr (multiexp _ _); apply: eq_map => q; rewrite mulrC.
Qed.

(** The vectors of a round, cut in halves *)
Lemma half_take (A : Type) k (s : seq A) : size s = (2 ^ k.+1)%N -> size (take (2 ^ k) s) = (2 ^ k)%N.
Proof. by move=> hs; rewrite size_takel // hs leq_exp2l. Qed.
Lemma half_drop (A : Type) k (s : seq A) : size s = (2 ^ k.+1)%N -> size (drop (2 ^ k) s) = (2 ^ k)%N.
Proof. by move=> hs; rewrite size_drop hs expnS mul2n -addnn addnK. Qed.
Lemma mcat (W : lmodType F) (ps qs : seq W) (cs ds : seq F) : size ps = size cs -> multiexp (ps ++ qs) (cs ++ ds) = multiexp ps cs + multiexp qs ds.
Proof. by elim: ps cs => [|p ps ih] [|c cs] //=; [rewrite add0r|move=> [/ih ->]; rewrite addrA]. Qed.
Lemma multiexp_halves (W : lmodType F) k (gs : seq W) (a : seq F) : size gs = (2 ^ k.+1)%N -> size a = (2 ^ k.+1)%N ->
  multiexp gs a = multiexp (take (2 ^ k) gs) (take (2 ^ k) a) + multiexp (drop (2 ^ k) gs) (drop (2 ^ k) a).
Proof. by move=> h1 h2; rewrite -mcat ?cat_take_drop // !half_take. Qed.
Lemma multiexp_bases (W : lmodType F) (x : F) : forall (gh gl : seq W) (co : seq F), size gl = size co -> size gh = size co ->
  multiexp [seq x *: q.1 + q.2 | q <- zip gh gl] co = multiexp gl co + multiexp gh [seq c * x | c <- co].
Proof.
elim=> [|p gh ih] [|p' gl] [|c co] //=; first by rewrite addr0.
move=> [h1] [h2]; rewrite ih // scalerDr scalerA; by rewrite [LHS](AC (2*2) (2*3*(1*4))).
Qed.

Notation rsum rnd chals := (\sum_(q <- zip rnd chals) (q.1.1 * q.2^-1 + q.1.2 * q.2)).
Lemma inner_halves k (a b : seq F) : size a = (2 ^ k.+1)%N -> size b = (2 ^ k.+1)%N ->
  inner a b = inner (take (2 ^ k) a) (take (2 ^ k) b) + inner (drop (2 ^ k) a) (drop (2 ^ k) b).
Proof. by move=> ha hb; rewrite !inner_regular (multiexp_halves (W := GRing.regular_lmodType F) hb ha). Qed.
Lemma inner_bases (x : F) (bh bl co : seq F) : size bl = size co -> size bh = size co ->
  inner co [seq q.1 * x + q.2 | q <- zip bh bl] = inner co bl + inner [seq c * x | c <- co] bh.
Proof.
move=> h1 h2; rewrite !inner_regular; apply: etrans (@multiexp_bases (GRing.regular_lmodType F) x bh bl co h1 h2).
by congr (multiexp _ _); apply: eq_map => q; rewrite mulrC.
Qed.
Lemma rounds_size u k : forall rnd gs (a b : seq F) s, size (ipa_rounds h absorb_g squeeze u k rnd gs a b s).1.1.2 = k.
Proof.
elim: k => // k ih rnd gs a b s; cbn [ipa_rounds]; case: (squeeze _) => x s1.
set R := ipa_rounds _ _ _ _ _ _ _ _ _ _; have := ih _ _ _ _ _ : size R.1.1.2 = k.
by case: R => [[[lr chals] [[a0 b0] g0]] s2] /= ->.
Qed.
Lemma rounds_challenges u k : forall rnd gs (a b : seq F) s, let R := ipa_rounds h absorb_g squeeze u k rnd gs a b s in
  ipa_challenges absorb_g squeeze R.1.1.1 s = (R.1.1.2, R.2).
Proof.
elim: k => // k ih rnd gs a b s; cbn [ipa_rounds]; case sq: (squeeze _) => [x s1].
set R := ipa_rounds _ _ _ _ _ _ _ _ _ _; have := ih _ _ _ _ _ : ipa_challenges absorb_g squeeze R.1.1.1 s1 = (R.1.1.2, R.2).
by case: R => [[[lr chals] [[a0 b0] g0]] s2] /= e; rewrite sq e.
Qed.
Lemma ipa_roundsE u k : forall rnd gs (a b : seq F) s, size gs = (2 ^ k)%N -> size a = (2 ^ k)%N -> size b = (2 ^ k)%N -> size rnd = k ->
  let: (lr, chals, (a0, b0, g0), s') := ipa_rounds h absorb_g squeeze u k rnd gs a b s in
  all (fun x => x != 0) chals ->
  [/\ ipa_challenges absorb_g squeeze lr s = (chals, s'), size lr = k, g0 = multiexp gs (coefs chals), b0 = inner (coefs chals) b &
    multiexp gs a + inner a b *: u + \sum_(q <- zip lr chals) (q.2^-1 *: q.1.1 + q.2 *: q.1.2) =
    a0 *: (g0 + b0 *: u) + rsum rnd chals *: h].
Proof.
elim: k => [|k ih] rnd gs a b s hg ha hb hr.
  case: gs hg => [|g0 [|]] // _; case: a ha => [|a0 [|]] // _; case: b hb => [|b0 [|]] // _; case: rnd hr => //= _ _.
  by split=> //; rewrite ?big_nil ?scale1r ?addr0 /inner /= ?mul1r ?addr0 // scale0r addr0 scalerDr scalerA.
case: rnd hr => [|[rl rr] rnd] // [hr]; cbn [ipa_rounds head behead].
set l := multiexp _ _ + _ + _; set r := multiexp _ _ + _ + _; case sq: (squeeze _) => [x s1].
have sz A (y : A) (f : A * A -> A) (t : seq A) : size t = (2 ^ k.+1)%N -> size [seq f q | q <- zip (drop (2 ^ k) t) (take (2 ^ k) t)] = (2 ^ k)%N.
  by move=> ht; rewrite size_map size_zip half_take // half_drop // minnn.
have := ih rnd [seq x *: q.1 + q.2 | q <- zip (drop (2 ^ k) gs) (take (2 ^ k) gs)] [seq q.1 * x^-1 + q.2 | q <- zip (drop (2 ^ k) a) (take (2 ^ k) a)]
  [seq q.1 * x + q.2 | q <- zip (drop (2 ^ k) b) (take (2 ^ k) b)] s1 (sz V 0 (fun q => x *: q.1 + q.2) _ hg) (sz F 0 (fun q => q.1 * x^-1 + q.2) _ ha) (sz F 0 (fun q => q.1 * x + q.2) _ hb) hr.
have := @rounds_size u k rnd [seq x *: q.1 + q.2 | q <- zip (drop (2 ^ k) gs) (take (2 ^ k) gs)] [seq q.1 * x^-1 + q.2 | q <- zip (drop (2 ^ k) a) (take (2 ^ k) a)]
  [seq q.1 * x + q.2 | q <- zip (drop (2 ^ k) b) (take (2 ^ k) b)] s1.
case: (ipa_rounds _ _ _ _ _ _ _ _ _) => [[[lr chals] [[a0 b0] g0]] s2] /= szc H /andP[x0 hc].
have {H}[e1 e2 e3 e4 e5] := H hc.
split.
- by rewrite sq e1.
- by rewrite e2.
- by rewrite e3 (multiexp_bases x) ?size_coefs ?szc ?half_take ?half_drop // -mcat ?cat_take_drop // size_coefs szc half_take.
- rewrite e4 inner_bases ?size_coefs ?szc ?half_take ?half_drop // [RHS](inner_halves (k := k)) // ?take_size_cat ?drop_size_cat ?size_coefs ?szc //.
  by rewrite size_cat size_map size_coefs szc addnn -mul2n -expnS.
have {}e5 := congr1 (fun y => y + (rl * x^-1 + rr * x) *: h) e5.
move: e5; rewrite multiexp_fold ?half_take ?half_drop // inner_fold ?half_take ?half_drop // !big_cons /= [in X in _ -> X](scalerDl h).
rewrite (multiexp_halves hg ha) (inner_halves ha hb).
rewrite /l /r; move: (\sum_(q <- zip lr chals) _) (rsum rnd chals *: h) (a0 *: _).
move: (inner _ _) (inner _ _) (inner _ _) (inner _ _) (multiexp _ _) (multiexp _ _) (multiexp _ _) (multiexp _ _) => i1 i2 i3 i4 A1 A2 A3 A4 L R Q.
rewrite addrAC -[Q + R + _]addrA [R + _]addrC => <- /=; rewrite [rl / x]mulrC [rr * x]mulrC !scalerDl !scalerDr !scalerA.
by rewrite [LHS](AC ((2*2)*((3*3)*1)) ((((1*2)*(8*5))*((3*4)*(10*7)))*(6*9)*11)).
Qed.

(** The combination of the polynomials *)
Definition lin (W : lmodType F) (c : nat -> W) n (a : seq F) : W := \sum_(k < n) nth 0 a k *: c k.
Lemma lin_multiexp (a : seq F) : multiexp g a = lin (fun k => nth 0 g k) (size g) a.
Proof. by rewrite (@multiexpE _ _ _ _ (size g)) ?leqnn. Qed.
Lemma lin_add (W : lmodType F) (c : nat -> W) (a seg : seq F) t :
  lin c (size a) (add_segment a 0 seg t) = lin c (size a) a + t *: lin c (size a) seg.
Proof.
rewrite /lin scaler_sumr -big_split; apply: eq_bigr => k _ /=.
by rewrite (nth_map 0%N) ?size_iota // nth_iota // add0n leq0n subn0 scalerDl scalerA [t * _]mulrC.
Qed.
Definition cstep (xi : F) (st : seq F * F * F) (q : seq F * F) : seq F * F * F :=
  (add_segment st.1.1 0 q.1 st.2, st.1.2 + q.2 * st.2, st.2 * xi).
Lemma cstep_fold (W : lmodType F) (c : nat -> W) xi qs : forall a bl sc, let R := foldl (cstep xi) (a, bl, sc) qs in
  [/\ size R.1.1 = size a, lin c (size a) R.1.1 = lin c (size a) a + sc *: hv [seq lin c (size a) q.1 | q <- qs] xi &
     R.1.2 = bl + sc * peval [seq q.2 | q <- qs] xi].
Proof.
elim: qs => [|q qs ih] a bl sc /=; first by rewrite scaler0 mulr0 !addr0.
have sa : size (add_segment a 0 q.1 sc) = size a by rewrite size_map size_iota.
have [e1 e2 e3] := ih (add_segment a 0 q.1 sc) (bl + q.2 * sc) (sc * xi); rewrite sa in e1 e2; split=> //.
  by rewrite e2 lin_add scalerDr !scalerA addrA.
by rewrite e3; fring F.
Qed.

(** The segments of a polynomial with their blinding elements; the last one again, shifted to the end, for a bounded polynomial *)
Definition tail_size (p : honest_input F) := (size p.1.1 %% size g)%N.
Definition shifted_segment (p : honest_input F) : seq F := nseq (size g - tail_size p) 0 ++ drop (size p.1.1 - tail_size p) p.1.1.
Definition pieces (p : honest_input F) : seq (seq F * F) :=
  zip (segments g p.1.1) p.1.2 ++ (if p.2 is Some w then if tail_size p == 0%N then [::] else [:: (shifted_segment p, w)] else [::]).
Definition all_pieces polys := flatten [seq pieces p | p <- polys].
Definition good p := (size p.1.2 == size (segments g p.1.1)) && honest_shifted g h p.
Lemma zip_pieces (p : honest_input F) : size p.1.2 = size (segments g p.1.1) ->
  zip (segments g p.1.1) p.1.2 = [seq (take (size g) (drop (j * size g) p.1.1), nth 0 p.1.2 j) | j <- iota 0 (size p.1.2)].
Proof.
move=> hs; apply: (@eq_from_nth _ ([::], 0)); first by rewrite size_zip hs minnn size_map size_iota -hs.
move=> i; rewrite size_zip -hs minnn => hi; rewrite nth_zip // (nth_map 0%N) ?size_iota // nth_iota // add0n.
by rewrite /segments (nth_map 0%N) ?nth_iota //; move: hi; rewrite hs size_map size_iota.
Qed.
Lemma multiexp0 (p : seq F) : multiexp ([::] : seq V) p = 0.
Proof. by []. Qed.
(** The cases of an honest polynomial: no bound; a bound and full segments; a bound and a last segment that is not full *)
Lemma honest_cases p : good p -> let b := size p.1.1 in
  [\/ p.2 = None /\ pc_shifted (honest_commitment g h p).1 = 0,
      (exists w, p.2 = Some w) /\ [/\ tail_size p = 0%N, pc_shifted (honest_commitment g h p).1 = 0 & forall j, (j < size p.1.2)%N -> (j.+1 * size g <= b)%N] |
      exists w m, [/\ p.2 = Some w, size p.1.2 = m.+1, (0 < tail_size p < size g)%N, (m * size g + tail_size p = b)%N &
        pc_shifted (honest_commitment g h p).1 != 0]].
Proof.
case: p => [[cs ws] [w|]]; last by move=> _; apply: Or31; rewrite /honest_commitment /commitment /= eqxx.
rewrite /good /honest_shifted /tail_size; have [C eC] : exists C, C = pc_shifted (honest_commitment g h (cs, ws, Some w)).1 by eexists.
rewrite -eC; cbn [fst snd]; move=> /andP[/eqP hs hb]; have := divn_eq (size cs) (size g).
move: hs; rewrite size_map size_iota => hs; case: (posnP (size g)) => g0.
  have e0 : C = 0.
    rewrite eC /honest_commitment /commitment /=; have -> : g = [::] by apply: size0nil.
    have -> : drop (size ([::] : seq V) - size cs %% size ([::] : seq V)) ([::] : seq V) = [::] by apply: drop_oversize.
    by rewrite multiexp0 !if_same eqxx.
  move: hb hs; rewrite e0 eqxx orbF g0 modn0 divn0 => /eqP hc hs _; apply: Or32; split; [by exists w|split=> // j].
  by rewrite hs.
case: (posnP (size cs %% size g)) => r0.
  rewrite r0 addn0 => hd; apply: Or32; split; [by exists w|split=> //].
    by rewrite eC /honest_commitment /commitment /= r0 subn0 ltnn eqxx.
  have hq : size ws = (size cs %/ size g)%N by rewrite hs {1}hd divnMDl // [((size g).-1 %/ _)%N]divn_small ?addn0 ?prednK.
  by move=> j; rewrite hq => hj; rewrite hd leq_mul2r hj orbT.
move=> hd; apply: Or33; exists w, (size cs %/ size g)%N; rewrite ltn_pmod //; split=> //.
  rewrite hs; have -> : (size cs + (size g).-1 = (size cs %/ size g).+1 * size g + (size cs %% size g).-1)%N.
    move: hd r0 g0; rewrite mulSn; move: (size cs %/ size g * size g)%N (size cs %% size g)%N (size g) (size cs) => x y z t; clear; slia.
  by rewrite divnMDl // [(_.-1 %/ _)%N]divn_small ?addn0 // (leq_ltn_trans (leq_pred _)) // ltn_pmod.
by move: hb; rewrite -leqn0 leqNgt r0.
Qed.
Lemma blindersE p : good p -> pc_unshifted (honest_commitment g h p).2 = p.1.2 /\
  (pc_shifted (honest_commitment g h p).1 != 0 -> pc_shifted (honest_commitment g h p).2 = odflt 0 p.2).
Proof.
move=> /andP[/eqP hs _]; rewrite /honest_commitment /commitment /= size_map -hs take_size; split=> //.
by case: ifP => // _; rewrite eqxx.
Qed.
Lemma add_shifted (a seg : seq F) m t : add_segment a m seg t = add_segment a 0 (nseq m 0 ++ seg) t.
Proof.
apply/eq_map => i; rewrite leq0n subn0 nth_cat size_nseq; case: leqP => // hi.
by rewrite nth_nseq hi mul0r.
Qed.
(** The last segment of a bounded polynomial *)
Lemma last_segment p m : (0 < tail_size p < size g)%N -> (m * size g + tail_size p = size p.1.1)%N ->
  take (size g) (drop (m * size g) p.1.1) = drop (size p.1.1 - tail_size p) p.1.1 /\ size (drop (size p.1.1 - tail_size p) p.1.1) = tail_size p.
Proof.
move=> /andP[r0 r1] hb; have -> : (size p.1.1 - tail_size p = m * size g)%N by rewrite -hb addnK.
have sd : size (drop (m * size g) p.1.1) = tail_size p by rewrite size_drop -hb addKn.
by rewrite take_oversize // sd ltnW.
Qed.
Lemma plain_fold xi p (st : seq F * F * F) k n : (forall j, (k <= j < k + n)%N -> (if pl_bound p is Some b then (b < j.+1 * size g)%N else false) = false) ->
  foldl (combine_step g xi p) st (iota k n) =
  foldl (cstep xi) st [seq (take (size g) (drop (j * size g) (pl_coeffs p)), nth 0 (pc_unshifted (pl_commit p)) j) | j <- iota k n].
Proof.
elim: n k st => [|n ih] k [[a bl] sc] // hj; cbn [iota map foldl].
rewrite -ih; last by move=> j /andP[h1 h2]; apply: hj; rewrite (ltnW h1) -addSnnS.
congr foldl; rewrite /combine_step hj // leqnn; by rewrite -addSnnS leq_addr.
Qed.
Lemma bounded_step xi p st j : (if pl_bound p is Some b then (b < j.+1 * size g)%N else false) ->
  let seg := take (size g) (drop (j * size g) (pl_coeffs p)) in
  combine_step g xi p st j =
  cstep xi (cstep xi st (seg, nth 0 (pc_unshifted (pl_commit p)) j)) (nseq (size g - size seg) 0 ++ seg, pc_shifted (pl_commit p)).
Proof. by case: st => [[a bl] sc] hb; rewrite /combine_step hb /cstep /= -add_shifted. Qed.
Lemma combineE xi polys : all good polys ->
  combine g xi (honest_polys g h polys) = foldl (cstep xi) (nseq (size g) 0, 0, 1) (all_pieces polys).
Proof.
rewrite /combine; move: (nseq _ _, 0, 1) => st; elim: polys st => [|p polys ih] st // /andP[hp hps].
rewrite /all_pieces [flatten _]/= foldl_cat -/(all_pieces polys) -(ih _ hps) {ih hps}; cbn [honest_polys map foldl]; congr foldl.
have [b1 b2] := blindersE hp; have hsz : size p.1.2 = size (segments g p.1.1) by case/andP: hp => /eqP.
cbn [pl_commit]; rewrite b1 /pieces zip_pieces //.
have [[e1 e2]|[[w e1] [e2 e3 e4]]|[w [m [e1 e2 e3 e4 e5]]]] := honest_cases hp.
- rewrite e1 cats0 plain_fold; cbn [pl_coeffs pl_commit pl_bound]; first by rewrite b1.
  by rewrite /honest_bound e1.
- rewrite e1 e2 eqxx cats0 plain_fold; cbn [pl_coeffs pl_commit pl_bound]; first by rewrite b1.
  by rewrite /honest_bound e1 => j; rewrite add0n => /e4 hj; rewrite ltnNge hj.
rewrite e1; have /andP[r0 r1] := e3; rewrite -[tail_size p == 0%N]leqn0 leqNgt r0 e2 -addn1 iotaD map_cat -catA !foldl_cat.
rewrite (@plain_fold _ _ _ 0 m); cbn [pl_coeffs pl_commit pl_bound]; last first.
  by rewrite /honest_bound e1 => j /andP[_ hj]; apply/negbTE; rewrite -leqNgt -e4 (leq_trans _ (leq_addr _ _)) // leq_mul2r hj orbT.
rewrite b1 add0n; set st' := foldl _ _ [seq _ | j <- iota 0 m].
rewrite -[LHS]/(combine_step g xi (PolySingle p.1.1 (honest_bound p) (honest_commitment g h p).2) st' m) bounded_step; last first.
  by cbn [pl_bound]; rewrite /honest_bound e1 -e4 mulSnr ltn_add2l.
cbn [pl_coeffs pl_commit pl_bound]; rewrite b1 (b2 e5) e1; have [-> s2] := last_segment e3 e4.
rewrite s2 -[RHS]/(cstep xi (cstep xi st' (take (size g) (drop (m * size g) p.1.1), nth 0 p.1.2 m)) (shifted_segment p, w)).
by have [-> _] := last_segment e3 e4.
Qed.
(** The commitments of the verifier *)
Lemma multiexp_shift m (c : seq F) : (m <= size g)%N -> multiexp (drop m g) c = multiexp g (nseq m 0 ++ c).
Proof.
move=> hm; rewrite -[in RHS](cat_take_drop m g) multiexp_cat ?size_nseq ?size_takel //.
by rewrite (@multiexpE _ _ _ (nseq m 0) m) ?size_nseq ?leqnn ?orbT // big1 ?add0r // => i _; rewrite nth_nseq if_same scale0r.
Qed.
Lemma commsE points polys : all good polys ->
  checked_commitments (honest_evaluations g h points polys) = [seq multiexp g q.1 + q.2 *: h | q <- all_pieces polys].
Proof.
elim: polys => [|p polys ih] // /andP[hp hps]; rewrite /all_pieces [flatten _]/= map_cat -/(all_pieces polys) -(ih hps) {ih hps}.
rewrite /checked_commitments; cbn [honest_evaluations map flatten foldr el_commit el_bound]; congr (_ ++ _); rewrite map_cat; congr (_ ++ _).
  rewrite /honest_commitment /commitment /=; by elim: (segments g p.1.1) p.1.2 {hp} => [|x xs ihx] [|y ys] //=; rewrite ihx.
have [[e1 e2]|[[w e1] [e2 e3 e4]]|[w [m [e1 e2 e3 e4 e5]]]] := honest_cases hp.
- by rewrite e1 e2 eqxx andbF.
- by rewrite e1 e2 e3 !eqxx andbF.
have /andP[r0 r1] := e3; rewrite e5 e1 -[tail_size p == 0%N]leqn0 leqNgt r0 /honest_bound e1; cbn [andb negb eq_op map fst snd].
rewrite -[LHS]/[:: pc_shifted (honest_commitment g h p).1]; congr [:: _].
move: e5; rewrite /honest_commitment /commitment /honest_bound e1 -/(tail_size p); cbn [fst pc_shifted odflt oapp]; case: ifP => [_ _|_]; last by rewrite eqxx.
rewrite ltn_subrL r0 (leq_trans r0) ?leq_mod //; congr (_ + _); rewrite /shifted_segment multiexp_shift //; exact: leq_subr.
Qed.

(** The combined value *)
Lemma map_nth_seq (T T' : Type) (x0 : T) (f : T -> T') (s : seq T) : [seq f (nth x0 s i) | i <- iota 0 (size s)] = [seq f x | x <- s].
Proof. by rewrite -[in RHS](mkseq_nth x0 s) -map_comp. Qed.
Definition values points r (seg : seq F) : F := peval [seq (Poly seg).[x] | x <- points] r.
Notation vstep points xi r := (fun (st : F * F) (q : seq F * F) => (st.1 + st.2 * values points r q.1, st.2 * xi)).
Lemma Poly_shift m (c : seq F) x : (Poly (nseq m 0 ++ c)).[x] = x ^+ m * (Poly c).[x].
Proof. by elim: m => [|m ih] /=; rewrite ?mul1r // horner_cons ih addr0 exprS mulrAC [_ * x]mulrC. Qed.
Lemma cip_stepE points xi r st p : points != [::] -> good p ->
  cip_step g points xi r st (Evaluation (honest_commitment g h p).1 [seq [seq (Poly seg).[x] | seg <- segments g p.1.1] | x <- points] (honest_bound p),
    if pc_shifted (honest_commitment g h p).1 != 0 then honest_bound p else None) =
  Some (foldl (vstep points xi r) st (pieces p)).
Proof.
move=> hp hg; have hs : size p.1.2 = size (segments g p.1.1) by case/andP: hg => /eqP.
rewrite /cip_step; cbn [fst snd el_evaluations]; set rows := [seq _ | x <- points].
have sh : size (head [::] rows) = size (segments g p.1.1) by rewrite /rows; case: points hp @rows => //= x xs _; rewrite size_map.
have -> : all (fun row => size (head [::] rows) <= size row)%N rows.
  by apply/allP => row /mapP[x _ ->]; rewrite sh size_map.
have -> : [seq [seq nth 0 row i | row <- rows] | i <- iota 0 (size (head [::] rows))] =
    [seq [seq (Poly q.1).[x] | x <- points] | q <- zip (segments g p.1.1) p.1.2].
  rewrite sh -(map_nth_seq ([::], 0)) size_zip hs minnn; apply/eq_in_map => i; rewrite mem_iota add0n => /= hi.
  by rewrite -map_comp; apply: eq_map => x /=; rewrite (nth_map [::]) // nth_zip.
have ef : forall (qs : seq (seq F * F)) st, foldl (fun (st : F * F) ev => (st.1 + st.2 * peval ev r, st.2 * xi)) st
    [seq [seq (Poly q.1).[x] | x <- points] | q <- qs] = foldl (vstep points xi r) st qs by elim=> //= q qs ih st'; rewrite ih.
rewrite ef /pieces foldl_cat.
have [[e1 e2]|[[w e1] [e2 e3 e4]]|[w [m [e1 e2 e3 e4 e5]]]] := honest_cases hg.
- by rewrite e1 e2 eqxx.
- by rewrite e1 e2 e3 !eqxx.
have /andP[r0 r1] := e3; have t0 : (tail_size p == 0%N) = false by rewrite -leqn0 leqNgt r0.
rewrite e5 e1 /honest_bound e1 t0.
have sz : size (zip (segments g p.1.1) p.1.2) = m.+1 by rewrite size_zip -hs minnn.
have hb : (size p.1.1 <= m.+1 * size g)%N by rewrite -e4 mulSnr leq_add2l ltnW.
rewrite size_map sz hb; set st1 := foldl _ _ _.
have -> : last [::] [seq [seq (Poly q.1).[x] | x <- points] | q <- zip (segments g p.1.1) p.1.2] =
    [seq (Poly (drop (size p.1.1 - tail_size p) p.1.1)).[x] | x <- points].
  rewrite (last_nth [::]) size_map sz -[nth _ _ _]/(nth [::] [seq [seq (Poly q.1).[x] | x <- points] | q <- zip (segments g p.1.1) p.1.2] m).
  have hm : ((size p.1.1 + (size g).-1) %/ size g)%N = m.+1 by rewrite -e2 hs size_map size_iota.
  rewrite (nth_map ([::], 0)) ?sz // nth_zip // /segments hm (nth_map 0%N) ?size_iota // nth_iota // add0n; cbn [fst].
  by have [-> _] := last_segment e3 e4.
rewrite size_map leqnn -[RHS]/(Some (st1.1 + st1.2 * values points r (shifted_segment p), st1.2 * xi)); congr (Some (_ + _ * _, _)).
rewrite /values /shifted_segment -/(tail_size p); congr peval; elim: points {hp rows sh ef st1} => //= x xs ->; by rewrite Poly_shift.
Qed.
Lemma cipE points xi r polys : points != [::] -> all good polys ->
  combined_inner_product g points xi r [seq (ev, if pc_shifted (el_commit ev) != 0 then el_bound ev else None) | ev <- honest_evaluations g h points polys] =
  Some (peval [seq values points r q.1 | q <- all_pieces polys] xi).
Proof.
move=> hp hs; rewrite /combined_inner_product.
have -> : ofold (cip_step g points xi r) (0, 1) [seq (ev, if pc_shifted (el_commit ev) != 0 then el_bound ev else None) | ev <- honest_evaluations g h points polys] =
    Some (foldl (vstep points xi r) (0, 1) (all_pieces polys)).
  move: (0, 1) => st; elim: polys hs st => [|p polys ih] // /andP[h1 h2] st.
  rewrite /all_pieces [flatten _]/= foldl_cat -/(all_pieces polys) -ih //.
  rewrite -[LHS]/(obnd (cip_step g points xi r st (Evaluation (honest_commitment g h p).1 _ (honest_bound p), if pc_shifted (honest_commitment g h p).1 != 0 then honest_bound p else None)) (ofold (cip_step g points xi r) ^~ _)).
  by rewrite cip_stepE.
by rewrite /= (power_fold (fun q => values points r q.1)) /= add0r mul1r.
Qed.
Lemma b_entryE (r : F) points i : b_entry r points i = \sum_(j < size points) r ^+ j * nth 0 points j ^+ i.
Proof.
rewrite /b_entry (power_fold (fun e => e ^+ i)) /= add0r mul1r pevalS size_map.
by apply: eq_bigr => j _; rewrite (nth_map 0).
Qed.
Lemma valuesE points r n (seg : seq F) : (size seg <= n)%N -> values points r seg = \sum_(k < n) nth 0 seg k * b_entry r points k.
Proof.
move=> hs; rewrite /values pevalS size_map.
under eq_bigr => j _ do rewrite (nth_map 0) // (@horner_coef_wide _ n) ?(leq_trans (size_Poly _)) // mulr_sumr.
rewrite exchange_big; apply: eq_bigr => k _ /=; rewrite b_entryE mulr_sumr; apply: eq_bigr => j _.
by rewrite coef_Poly mulrCA.
Qed.

Lemma pieces_size polys : all good polys -> all (fun q => size q.1 <= size g)%N (all_pieces polys).
Proof.
elim: polys => // p polys ih /andP[hg /ih hps]; rewrite /all_pieces [flatten _]/= all_cat -/(all_pieces polys) hps andbT /pieces all_cat; apply/andP; split.
  have : all (fun seg => size seg <= size g)%N (segments g p.1.1) by rewrite all_map; apply/allP => j _ /=; rewrite size_take; case: ltnP.
  by elim: (segments g p.1.1) p.1.2 {hg} => [|x xs ihx] [|y ys] //= /andP[-> /ihx ->].
have [[e1 e2]|[[w e1] [e2 e3 e4]]|[w [m [e1 e2 e3 e4 e5]]]] := honest_cases hg.
- by rewrite e1.
- by rewrite e1 e2.
rewrite e1; case: eqP => // _ /=; have /andP[r0 r1] := e3; have [_ s2] := last_segment e3 e4.
by rewrite /shifted_segment size_cat size_nseq s2 subnK ?leqnn // ltnW.
Qed.
Lemma hv_peval (xs : seq F) t : hv (xs : seq (GRing.regular_lmodType F)) t = peval xs t.
Proof. by elim: xs => //= x xs ->. Qed.
Lemma lin0 (W : lmodType F) (c : nat -> W) n m : lin c n (nseq m 0) = 0.
Proof. by rewrite /lin big1 // => k _; rewrite nth_nseq if_same scale0r. Qed.
Lemma nth_pad (A : zmodType) (s : seq A) n i : nth 0 (pad 0 s n) i = nth 0 s i.
Proof. by rewrite /pad nth_cat; case: ltnP => // hi; rewrite nth_nseq if_same nth_default. Qed.
Lemma comms_power xi (qs : seq (seq F * F)) : power_sum xi [seq multiexp g q.1 + q.2 *: h | q <- qs] =
  hv [seq multiexp g q.1 | q <- qs] xi + peval [seq q.2 | q <- qs] xi *: h.
Proof.
rewrite power_sum_hv; elim: qs => [|q qs ih] /=; first by rewrite scale0r addr0.
by rewrite ih scalerDr !scalerDl scalerA; rewrite [LHS](AC (2*2) (1*3*(2*4))).
Qed.

(** What the prover combines *)
Lemma combined xi r points polys : all good polys ->
  let: (a, bl, _) := combine g xi (honest_polys g h polys) in
  [/\ size a = size g, multiexp g a = hv [seq multiexp g q.1 | q <- all_pieces polys] xi,
    values points r a = peval [seq values points r q.1 | q <- all_pieces polys] xi & bl = peval [seq q.2 | q <- all_pieces polys] xi].
Proof.
move=> hp; rewrite combineE //.
have [e1 e2 e3] := cstep_fold (fun k => nth 0 g k) xi (all_pieces polys) (nseq (size g) 0) 0 1.
have [_ f2 _] := cstep_fold (W := GRing.regular_lmodType F) (fun k => b_entry r points k) xi (all_pieces polys) (nseq (size g) 0) 0 1.
case: (foldl _ _ _) e1 e2 e3 f2 => [[a bl] sc] /=; rewrite size_nseq => e1 e2 e3 f2; split=> //.
- rewrite lin_multiexp e2 lin0 add0r scale1r; congr hv; apply: eq_map => q; by rewrite -lin_multiexp.
- rewrite (@valuesE _ _ (size g)) ?e1 //; apply: etrans f2 _; rewrite lin0 add0r scale1r hv_peval; congr peval.
  by apply/eq_in_map => q hq; rewrite (@valuesE _ _ (size g)) //; apply: (allP (pieces_size hp)).
- by rewrite e3 add0r mul1r.
Qed.

Lemma honest_draws b : honest_batch g h absorb_fr draw_u absorb_g squeeze b -> exists d, draws b = Some d.
Proof.
move=> [polys [points [xi [r [rnd [dd [rd [s [hp hn hr ->]]]]]]]]]; rewrite /KimchiSpec.draws cipE //.
by eexists.
Qed.

Lemma honest_ok b d : honest_batch g h absorb_fr draw_u absorb_g squeeze b -> draws b = Some d -> all (fun x => x != 0) d.1.2 ->
  [/\ size (ip_lr (bt_opening b)) = rounds g, batch_opening h b d = 0 & batch_base g b d = 0].
Proof.
move=> [polys [points [xi [r [rnd [dd [rd [s [hp hn hr ->]]]]]]]]]; rewrite /KimchiSpec.draws cipE // [obnd _ _]/=.
case: d => [[[v u0] ch] c0]; rewrite /batch_opening /batch_base /opening_defect commsE // comms_power.
move: (combined xi r points hp); rewrite /ipa_prove; case: (combine _ _ _) => [[a bl] sc] [sa ea ev eb].
rewrite -ea -eb -ev; set n := (2 ^ rounds g)%N; set bb := [seq b_entry r points i | i <- iota 0 n].
have hgn : (size g <= n)%N := rounds_ge.
have sbb : size bb = n by rewrite size_map size_iota.
have nbb (k : 'I_n) : nth 0 bb k = b_entry r points k by rewrite (nth_map 0%N) ?size_iota // nth_iota.
have ein : inner (pad 0 a n) bb = values points r a.
  rewrite (@innerE _ _ _ n) ?sbb ?leqnn ?orbT // (@valuesE _ _ n) ?sa //; apply: eq_bigr => k _; by rewrite nth_pad nbb.
have eme : multiexp (pad 0 g n) (pad 0 a n) = multiexp g a.
  rewrite (@multiexpE _ _ (pad 0 g n) (pad 0 a n) n) ?pad_size ?sa ?leqnn // (@multiexpE _ _ g a n) ?hgn //; apply: eq_bigr => k _; by rewrite !nth_pad.
rewrite ein; case: (draw_u _) => u s1.
move: (@ipa_roundsE u (rounds g) rnd (pad 0 g n) (pad 0 a n) bb s1 (pad_size 0 hgn)).
rewrite pad_size ?sa // => /(_ erefl sbb hr).
have := @rounds_size u (rounds g) rnd (pad 0 g n) (pad 0 a n) bb s1.
have := @rounds_challenges u (rounds g) rnd (pad 0 g n) (pad 0 a n) bb s1.
case: (ipa_rounds _ _ _ _ _ _ _ _ _) => [[[lr chals] [[a0 b0] g0]] s2] /= ech szc H.
case sq: (squeeze (absorb_g s2 _)) => [c s3] /=; rewrite ech /= sq => -[<- <- <- <-] hc.
have {H}[_ e2 e3 e4 e5] := H hc; split=> //; last first.
  rewrite /base_defect e3 (@multiexpE _ _ (pad 0 g n) _ n) ?pad_size ?leqnn //; apply/eqP; rewrite subr_eq0; apply/eqP.
  have -> : \sum_(i < size g) (challenge_poly chals)`_i *: nth 0 g i = multiexp g (coefs chals).
    by rewrite (@multiexpE _ _ _ _ (size g)) ?leqnn //; apply: eq_bigr => i _; rewrite coefs_nth.
  by rewrite (@multiexpE _ _ g _ n) ?hgn //; apply: eq_bigr => k _; rewrite nth_pad.
have -> : \sum_(j < size points) r ^+ j * (challenge_poly chals).[nth 0 points j] = b0.
  rewrite e4 (@innerE _ _ _ n) ?sbb ?leqnn ?orbT //; under [RHS]eq_bigr => k _ do rewrite nbb b_entryE mulr_sumr.
  rewrite exchange_big; apply: eq_bigr => j _ /=; rewrite (@horner_coef_wide _ n) ?mulr_sumr; last first.
    by rewrite -Poly_coefs (leq_trans (size_Poly _)) // size_coefs szc.
  by apply: eq_bigr => k _; rewrite coefs_nth mulrCA.
have -> : foldl (fun (r0 : F) (q : F * F * F) => r0 + (q.1.1 / q.2 + q.1.2 * q.2)) bl (zip (take (size chals) rnd) chals) = bl + rsum rnd chals.
  rewrite szc -hr take_size; elim: (zip _ _) bl {eb} => [|q qs ih] bl /=; first by rewrite big_nil addr0.
  by rewrite ih big_cons [RHS]addrA.
rewrite eme ein in e5; have al : forall (M B v L Q : V), M + v + L = Q -> M + B + v + L = Q + B.
  by move=> M B w L Q <-; rewrite -!addrA; congr (_ + _); rewrite addrC -addrA.
rewrite (al _ _ _ _ _ e5); move: (g0 + b0 *: u) (rsum rnd chals) => X R.
apply/eqP; rewrite subr_eq0 [a0 * c]mulrC mulrDr !scalerDl !scalerDr !scalerA; apply/eqP.
by rewrite [LHS](AC (3*2) ((1*4)*((3*2)*5))).
Qed.
End Group.
