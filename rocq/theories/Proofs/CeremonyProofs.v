(** Powers of tau: the accumulator, the tests on pairs, soundness of the random combinations. *)
From mathcomp Require Import all_ssreflect all_algebra.
From Verif.Model Require Import Base Domain KnowledgeCommitment PowersOfTau.
From Verif.Spec Require Import GroupSpec CeremonySpec.
From Verif.Proofs Require Import NatTac FieldTac DomainProofs PermProofs KcProofs PackingProofs.
Set Implicit Arguments.
Unset Strict Implicit.
Unset Printing Implicit Defensive.
Import GRing.Theory.
Local Open Scope ring_scope.

Section Lists.
Variables (F : fieldType).

Lemma multiexp_scale (V : lmodType F) (t : F) (v : seq V) (r : seq F) :
  multiexp [seq t *: x | x <- v] r = t *: multiexp v r.
Proof.
elim: v r => [|x v IH] [|c r] //=; rewrite ?scaler0 //.
by rewrite IH scalerDr !scalerA mulrC.
Qed.

Lemma multiexp_gen (V : lmodType F) (g : V) (u r : seq F) :
  multiexp [seq x *: g | x <- u] r = (\sum_(i < minn (size u) (size r)) nth 0 u i * nth 0 r i) *: g.
Proof.
elim: u r => [|x u IH] [|c r] /=; rewrite ?min0n ?minn0 ?big_ord0 ?scale0r //.
by rewrite minnSS big_ord_recl /= IH scalerA -scalerDl (mulrC c x).
Qed.

Lemma generates_seq (V : lmodType F) (g : V) (v : seq V) : generates g -> exists u : seq F, v = [seq x *: g | x <- u].
Proof.
move=> gen; elim: v => [|x v [u ->]]; first by exists [::].
by have [c ->] := gen x; exists (c :: u).
Qed.

Lemma scaled_powersP (V : lmodType F) (g : V) (c tau : F) n (v : seq V) :
  scaled_powers g c tau n v <-> v = mkseq (fun i => (c * tau ^+ i) *: g) n.
Proof.
split=> [[sv hv]|->].
- apply: (@eq_from_nth _ 0); first by rewrite size_mkseq.
  by move=> i; rewrite sv => hi; rewrite hv // nth_mkseq.
by split=> [|i hi]; rewrite ?size_mkseq // nth_mkseq.
Qed.

Lemma shift_powers (V : lmodType F) (g : V) (c tau : F) n :
  drop 1 (mkseq (fun i => (c * tau ^+ i) *: g) n) =
  [seq tau *: x | x <- take (n - 1) (mkseq (fun i => (c * tau ^+ i) *: g) n)].
Proof.
apply: (@eq_from_nth _ 0); first by rewrite size_map size_drop size_takel ?size_mkseq ?leq_subr.
move=> i; rewrite size_drop size_mkseq => hi.
have hi1 : (1 + i < n)%N by slia.
rewrite (nth_map 0); last by rewrite size_takel ?size_mkseq ?leq_subr.
have hi2 : (i < n)%N by slia.
by rewrite nth_drop nth_take // !nth_mkseq // scalerA exprS mulrCA.
Qed.

(** The value of a random combination. *)
Definition combo (rnd : nat -> F) (off : nat) (d : seq F) : F := \sum_(i < size d) nth 0 d i * rnd (off + i)%N.

Lemma combo0 rnd off d : all (fun x => x == 0) d -> combo rnd off d = 0.
Proof.
move=> /(all_nthP 0) h; rewrite /combo big1 // => i _.
by have /eqP-> := h i (ltn_ord i); rewrite mul0r.
Qed.

Lemma combo_redraw rnd off d i c : (i < size d)%N ->
  combo (redraw rnd (off + i)%N c) off d = combo rnd off d + nth 0 d i * (c - rnd (off + i)%N).
Proof.
move=> hi; rewrite /combo (bigD1 (Ordinal hi)) //= [in RHS](bigD1 (Ordinal hi)) //=.
rewrite /redraw eqxx.
have -> : \sum_(j < size d | j != Ordinal hi) nth 0 d j * (if (off + j == off + i)%N then c else rnd (off + j)%N)
        = \sum_(j < size d | j != Ordinal hi) nth 0 d j * rnd (off + j)%N.
  by apply: eq_bigr => j; rewrite -val_eqE /= eqn_add2l => /negbTE ->.
by rewrite mulrBr addrAC [nth 0 d i * rnd _ + _]addrC subrK.
Qed.

Lemma combo_rarely off d (test : (nat -> F) -> option bool) : ~~ all (fun x => x == 0) d ->
  (forall rnd, test rnd = Some true -> combo rnd off d = 0) -> rarely_accepts test.
Proof.
rewrite -has_predC => /(has_nthP 0)[i hi /= d0] h.
exists (off + i)%N => rnd c /h h1 /h; rewrite combo_redraw // h1 add0r => /eqP.
by rewrite mulf_eq0 (negbTE d0) /= subr_eq0 => /eqP.
Qed.

End Lists.

Section Ceremony.
Variables (F : fieldType) (G1 G2 GT : lmodType F) (e : G1 -> G2 -> GT) (g1 : G1) (g2 : G2).
Hypothesis be : bilinear e.
Implicit Types (a before after : tau_accumulator G1 G2).

(** The accumulator for given secrets, as a term. *)
Definition tau_state n (t al b : F) : tau_accumulator G1 G2 :=
  TauAccumulator (mkseq (fun i => (1 * t ^+ i) *: g1) (n.*2 - 1)) (mkseq (fun i => (1 * t ^+ i) *: g2) n)
    (mkseq (fun i => (al * t ^+ i) *: g1) n) (mkseq (fun i => (b * t ^+ i) *: g1) n) (b *: g2).

Lemma accumulator_forP n t al b a : accumulator_for g1 g2 n t al b a <-> a = tau_state n t al b.
Proof.
split=> [[/scaled_powersP h1 /scaled_powersP h2 /scaled_powersP h3 /scaled_powersP h4 h5]|->].
- by case: a h1 h2 h3 h4 h5 => x1 x2 x3 x4 x5 /= -> -> -> -> ->.
by split=> //; apply/scaled_powersP.
Qed.

Lemma tau_initE n : tau_accumulator_init g1 g2 n = tau_state n 1 1 1.
Proof.
have h (V : lmodType F) (g : V) k : nseq k g = mkseq (fun i => (1 * 1 ^+ i) *: g) k.
  apply: (@eq_from_nth _ 0); rewrite ?size_mkseq size_nseq // => i hi.
  by rewrite nth_nseq hi nth_mkseq // expr1n mulr1 scale1r.
by rewrite /tau_accumulator_init /tau_state -!h scale1r.
Qed.

Lemma batchE (V : lmodType F) (g : V) (c t x : F) k n : (k <= n)%N ->
  naive_batch_exp (mkseq (fun i => (c * t ^+ i) *: g) k) (powers x n) = Some (mkseq (fun i => (c * (t * x) ^+ i) *: g) k).
Proof.
move=> kn; rewrite /naive_batch_exp size_mkseq size_powers kn; congr Some.
apply: (@eq_from_nth _ 0); first by rewrite size_map size_zip !size_mkseq size_powers (minn_idPl kn).
move=> i; rewrite size_map size_zip size_mkseq size_powers (minn_idPl kn) => hi.
rewrite (nth_map (0, 0)); last by rewrite size_zip size_mkseq size_powers (minn_idPl kn).
rewrite nth_zip_cond size_zip size_mkseq size_powers (minn_idPl kn) hi /= !nth_mkseq // nth_powers ?(leq_trans hi kn) //.
by rewrite scalerA exprMn [x ^+ i * _]mulrC mulrA.
Qed.

Lemma batch_coeffE (V : lmodType F) (g : V) (c t x y : F) k n : (k <= n)%N ->
  naive_batch_exp_with_coeff (mkseq (fun i => (c * t ^+ i) *: g) k) (powers x n) y =
  Some (mkseq (fun i => (c * y * (t * x) ^+ i) *: g) k).
Proof.
move=> kn; rewrite /naive_batch_exp_with_coeff size_mkseq size_powers kn; congr Some.
apply: (@eq_from_nth _ 0); first by rewrite size_map size_zip !size_mkseq size_powers (minn_idPl kn).
move=> i; rewrite size_map size_zip size_mkseq size_powers (minn_idPl kn) => hi.
rewrite (nth_map (0, 0)); last by rewrite size_zip size_mkseq size_powers (minn_idPl kn).
rewrite nth_zip_cond size_zip size_mkseq size_powers (minn_idPl kn) hi /= !nth_mkseq // nth_powers ?(leq_trans hi kn) //.
rewrite scalerA exprMn mulrACA; congr (_ *: _).
by rewrite (mulrC y c) (mulrC (x ^+ i)).
Qed.

Lemma transformE n t al b k : (0 < n)%N ->
  tau_transform n (tau_state n t al b) k = Some (tau_state n (t * tk_tau k) (al * tk_alpha k) (b * tk_beta k)).
Proof.
move=> n0; have kn : (n <= tau_powers_g1_length n)%N by rewrite /tau_powers_g1_length -addnn; slia.
rewrite /tau_transform /= !batchE // !batch_coeffE //=.
by rewrite scalerA (mulrC (tk_beta k) b).
Qed.

Lemma ceremonyE n keys : (0 < n)%N ->
  tau_ceremony g1 g2 n keys =
  Some (tau_state n (\prod_(k <- keys) tk_tau k) (\prod_(k <- keys) tk_alpha k) (\prod_(k <- keys) tk_beta k)).
Proof.
move=> n0; rewrite /tau_ceremony tau_initE.
suff h x y z : ofold (tau_transform n) (tau_state n x y z) keys =
  Some (tau_state n (x * \prod_(k <- keys) tk_tau k) (y * \prod_(k <- keys) tk_alpha k) (z * \prod_(k <- keys) tk_beta k)).
  by rewrite h !mul1r.
elim: keys x y z => [|k keys IH] x y z; first by rewrite /= !big_nil !mulr1.
by rewrite /= transformE //= IH !big_cons !mulrA.
Qed.

(** ** the tests *)

Lemma same_ratio_scale x y c : is_same_ratio e (x, c *: x) (y, c *: y).
Proof. by rewrite /is_same_ratio /= (e_scaler be) (e_scalel be). Qed.

Lemma power_pairsE (V : lmodType F) (g : V) (c t : F) n rnd off : (0 < n)%N ->
  exists x, power_pairs rnd off (mkseq (fun i => (c * t ^+ i) *: g) n) = Some (x, t *: x).
Proof.
move=> n0; rewrite /power_pairs size_mkseq n0 shift_powers /merge_pairs size_map eqxx.
by eexists; rewrite multiexp_scale.
Qed.

Variables (bf : seq nat -> nat) (rg : nat -> G2) (ser : G1 -> seq nat) (tt : tau_accumulator G1 G2 -> seq nat).

Lemma pok_ok s x tr p : pok_verify_with e (pok_proof_eval bf rg ser s x tr p)
   (compute_g2_s bf rg ser (pok_g1_s (pok_proof_eval bf rg ser s x tr p)) (pok_g1_s_x (pok_proof_eval bf rg ser s x tr p)) tr p).
Proof. by rewrite /pok_verify_with /= (e_scaler be) (e_scalel be). Qed.

Lemma vget_mkseq (T : Type) (f : nat -> T) n i : (i < n)%N -> vget (mkseq f n) i = Some (f i).
Proof. by move=> hi; rewrite (vget_nth (f i)) ?size_mkseq // nth_mkseq. Qed.

Lemma verify_honest n t al b k s1 s2 s3 rnd : (2 <= n)%N ->
  tau_verify_eval e g1 g2 bf rg ser tt rnd (tau_proof_eval bf rg ser tt k (tau_state n t al b) s1 s2 s3)
    (tau_state n t al b) (tau_state n (t * tk_tau k) (al * tk_alpha k) (b * tk_beta k)) = Some true.
Proof.
move=> n2; have n0 : (0 < n)%N by slia.
have m0 : (0 < n.*2 - 1)%N by rewrite -addnn; slia.
have m1 : (1 < n.*2 - 1)%N by rewrite -addnn; slia.
rewrite /tau_verify_eval /tau_proof_eval [tp_tau _]/= [tp_alpha _]/= [tp_beta _]/= !pok_ok [~~ true]/=.
rewrite /tau_state [ta_tau_g1 _]/= [ta_tau_g2 _]/= [ta_alpha_g1 _]/= [ta_beta_g1 _]/= [ta_beta_g2 _]/=.
rewrite !vget_mkseq // /obnd !expr0 !mulr1 !scale1r !eqxx !expr1 !mul1r.
rewrite ![(t * tk_tau k)]mulrC ![(al * tk_alpha k)]mulrC ![(b * tk_beta k)]mulrC -!scalerA.
rewrite !same_ratio_scale.
rewrite !scalerA.
have [x1 ->] := power_pairsE g1 1 (tk_tau k * t) rnd 0 m0; rewrite same_ratio_scale /=.
have [x2 ->] := power_pairsE g2 1 (tk_tau k * t) rnd (size (mkseq (fun i : nat => (1 * (tk_tau k * t) ^+ i) *: g1) (n.*2 - 1)) - 1)%N n0.
rewrite same_ratio_scale /=.
set off3 := (_ - 1 + (_ - 1))%N.
have [x3 ->] := power_pairsE g1 (tk_alpha k * al) (tk_tau k * t) rnd off3 n0; rewrite same_ratio_scale /=.
set off4 := (off3 + _)%N.
have [x4 ->] := power_pairsE g1 (tk_beta k * b) (tk_tau k * t) rnd off4 n0; rewrite same_ratio_scale /=.
by [].
Qed.

(** ** soundness of the tests *)
Hypothesis nd : e g1 g2 != 0.

Lemma ratioE (x y z w : F) : is_same_ratio e (x *: g1, y *: g1) (z *: g2, w *: g2) -> x * w = y * z.
Proof.
rewrite /is_same_ratio /= !(e_scaler be) !(e_scalel be) !scalerA -subr_eq0 -scalerBl scaler_eq0 (negbTE nd) orbF.
by rewrite subr_eq0 => /eqP h; rewrite mulrC h mulrC.
Qed.

Lemma multiexp_combo (V : lmodType F) (g : V) (u : seq F) rnd off :
  multiexp [seq x *: g | x <- u] (mkseq (fun i => rnd (off + i)%N) (size u)) = combo rnd off u *: g.
Proof.
rewrite multiexp_gen size_mkseq minnn; congr (_ *: _); apply: eq_bigr => i _.
by rewrite nth_mkseq.
Qed.

Lemma power_pairs_gen (V : lmodType F) (g : V) (v : seq F) rnd off : (0 < size v)%N ->
  power_pairs rnd off [seq x *: g | x <- v] =
  Some (combo rnd off (take (size v - 1) v) *: g, combo rnd off (drop 1 v) *: g).
Proof.
move=> v0; rewrite /power_pairs size_map v0 -map_take -map_drop /merge_pairs !size_map size_drop size_takel ?leq_subr //.
rewrite eqxx; congr (Some (_, _)).
- by rewrite -{2}(@size_takel (size v - 1) _ v) ?leq_subr // multiexp_combo.
by rewrite -(size_drop 1 v) multiexp_combo.
Qed.

(** What the random combination of a test on powers multiplies. *)
Definition defects (T : F) (v : seq F) : seq F := mkseq (fun i => nth 0 v i * T - nth 0 v i.+1) (size v - 1).

Lemma combo_defects T v rnd off :
  combo rnd off (take (size v - 1) v) * T = combo rnd off (drop 1 v) -> combo rnd off (defects T v) = 0.
Proof.
rewrite /combo size_mkseq size_takel ?leq_subr // size_drop => h.
transitivity ((\sum_(i < size v - 1) nth 0 (take (size v - 1) v) i * rnd (off + i)%N) * T -
  \sum_(i < size v - 1) nth 0 (drop 1 v) i * rnd (off + i)%N); last by rewrite h subrr.
rewrite big_distrl /= -sumrB; apply: eq_bigr => i _.
by rewrite nth_mkseq // nth_take // nth_drop add1n mulrBl mulrAC.
Qed.

Lemma defects0 T v : (0 < size v)%N -> all (fun x => x == 0) (defects T v) ->
  v = mkseq (fun i => nth 0 v 0 * T ^+ i) (size v).
Proof.
move=> v0 /(all_nthP 0) h; apply: (@eq_from_nth _ 0); first by rewrite size_mkseq.
elim=> [|i IH] hi; rewrite nth_mkseq //; first by rewrite expr0 mulr1.
have hi' : (i < size v - 1)%N by rewrite ltn_subRL add1n.
have := h i; rewrite size_mkseq => /(_ hi'); rewrite nth_mkseq // subr_eq0 => /eqP <-.
have hi2 : (i < size v)%N by apply: ltn_trans hi.
by rewrite IH // nth_mkseq // exprSr mulrA.
Qed.

Hypotheses (gen1 : generates g1) (gen2 : generates g2).
Hypothesis seeds : forall s, rg s != 0.

Lemma map_mkseq_gen (V : lmodType F) (g : V) (f : nat -> F) n : [seq x *: g | x <- mkseq f n] = mkseq (fun i => f i *: g) n.
Proof. by rewrite /mkseq -map_comp. Qed.

Lemma g10 : g1 != 0.
Proof. by apply: contra nd => /eqP->; rewrite -(scale0r 0) (e_scalel be) scale0r eqxx. Qed.
Lemma g20 : g2 != 0.
Proof. by apply: contra nd => /eqP->; rewrite -(scale0r 0) (e_scaler be) scale0r eqxx. Qed.

Lemma scale_one (V : lmodType F) (g : V) (x : F) : g != 0 -> x *: g = g -> x = 1.
Proof.
move=> g0 /eqP; rewrite -[X in _ == X]scale1r -subr_eq0 -scalerBl scaler_eq0 (negbTE g0) orbF subr_eq0.
by move/eqP.
Qed.

Lemma nth_vg (V : lmodType F) (g : V) (u : seq F) i : (i < size u)%N -> vget [seq x *: g | x <- u] i = Some (nth 0 u i *: g).
Proof. by move=> hi; rewrite (vget_nth 0) ?size_map // (nth_map 0). Qed.

(** What acceptance says, in scalars. *)
Lemma verify_inv n t al b p u1 u2 ua ub u5 (s1 s2 s3 y1 y2 y3 : F) : (2 <= n)%N ->
  size u1 = (n.*2 - 1)%N -> size u2 = n -> size ua = n -> size ub = n ->
  compute_g2_s bf rg ser (pok_g1_s (tp_tau p)) (pok_g1_s_x (tp_tau p)) (tt (tau_state n t al b)) tau_personalization = s1 *: g2 ->
  compute_g2_s bf rg ser (pok_g1_s (tp_alpha p)) (pok_g1_s_x (tp_alpha p)) (tt (tau_state n t al b)) alpha_personalization = s2 *: g2 ->
  compute_g2_s bf rg ser (pok_g1_s (tp_beta p)) (pok_g1_s_x (tp_beta p)) (tt (tau_state n t al b)) beta_personalization = s3 *: g2 ->
  pok_g2_s_x (tp_tau p) = y1 *: g2 -> pok_g2_s_x (tp_alpha p) = y2 *: g2 -> pok_g2_s_x (tp_beta p) = y3 *: g2 ->
  forall rnd, tau_verify_eval e g1 g2 bf rg ser tt rnd p (tau_state n t al b)
    (TauAccumulator [seq x *: g1 | x <- u1] [seq x *: g2 | x <- u2] [seq x *: g1 | x <- ua] [seq x *: g1 | x <- ub] (u5 *: g2)) = Some true ->
  [/\ nth 0 u1 0 = 1, nth 0 u2 0 = 1, t * y1 = nth 0 u1 1 * s1, al * y2 = nth 0 ua 0 * s2 & b * y3 = nth 0 ub 0 * s3] /\
  [/\ b * u5 = nth 0 ub 0 * b, combo rnd 0 (defects (nth 0 u2 1) u1) = 0,
      combo rnd (n.*2 - 1 - 1) (defects (nth 0 u1 1) u2) = 0,
      combo rnd (n.*2 - 1 - 1 + (n - 1)) (defects (nth 0 u2 1) ua) = 0
    & combo rnd (n.*2 - 1 - 1 + (n - 1) + (n - 1)) (defects (nth 0 u2 1) ub) = 0].
Proof.
move=> n2 z1 z2 za zb c1 c2 c3 d1 d2 d3 rnd.
have n0 : (0 < n)%N by slia.
have m1 : (1 < n.*2 - 1)%N by rewrite -addnn; slia.
have m0 : (0 < n.*2 - 1)%N by apply: ltn_trans m1.
rewrite /tau_verify_eval c1 c2 c3 d1 d2 d3.
case: (pok_verify_with e (tp_tau p) (s1 *: g2)); last by [].
case: (pok_verify_with e (tp_alpha p) (s2 *: g2)); last by [].
case: (pok_verify_with e (tp_beta p) (s3 *: g2)); last by [].
rewrite [~~ true]/= [ta_tau_g1 _]/= [ta_tau_g2 _]/= [ta_alpha_g1 _]/= [ta_beta_g1 _]/= [ta_beta_g2 _]/=.
rewrite !nth_vg ?z1 ?z2 ?za ?zb // !vget_mkseq // /obnd.
rewrite !size_map !power_pairs_gen ?z1 ?z2 ?za ?zb //.
case: eqP => [h1|_] //=.
case: eqP => [h2|_] //=.
have o1 := scale_one g10 h1; have o2 := scale_one g20 h2.
rewrite o1 o2.
case: ifP => [_|/negbFE/ratioE r1] //.
case: ifP => [_|/negbFE/ratioE r2] //.
case: ifP => [_|/negbFE/ratioE r3] //.
case: ifP => [_|/negbFE/ratioE r4] //.
case: ifP => [_|/negbFE/ratioE r5] //.
case: ifP => [_|/negbFE/ratioE r6] //.
case: ifP => [_|/negbFE/ratioE r7] //.
case: ifP => [_|/negbFE/ratioE r8] // _.
split; split=> //.
- by move: r1; rewrite expr1 mul1r.
- by move: r2; rewrite expr0 mulr1.
- by move: r3; rewrite expr0 mulr1.
- by move: r4; rewrite expr0 mulr1.
- by apply: combo_defects; rewrite z1 r5 mulr1.
- by apply: combo_defects; rewrite z2 mulrC -r6 mul1r.
- by apply: combo_defects; rewrite za r7 mulr1.
- by apply: combo_defects; rewrite zb r8 mulr1.
Qed.

Lemma verify_sound n t al b p after : (2 <= n)%N -> b != 0 ->
  size (ta_tau_g1 after) = (n.*2 - 1)%N -> size (ta_tau_g2 after) = n ->
  size (ta_alpha_g1 after) = n -> size (ta_beta_g1 after) = n ->
  (exists t' al' b', after = tau_state n (t * t') (al * al') (b * b')) \/
  rarely_accepts (fun rnd => tau_verify_eval e g1 g2 bf rg ser tt rnd p (tau_state n t al b) after).
Proof.
move=> n2 b0; case: after => w1 w2 wa wb w5 /= s1 s2 sa sb.
have n0 : (0 < n)%N by slia.
have m1 : (1 < n.*2 - 1)%N by rewrite -addnn; slia.
have [u1 e1] := generates_seq w1 gen1.
have [u2 e2] := generates_seq w2 gen2.
have [ua ea] := generates_seq wa gen1.
have [ub eb] := generates_seq wb gen1.
have [u5 e5] := gen2 w5.
move: s1 s2 sa sb; rewrite e1 e2 ea eb e5 !size_map => s1 s2 sa sb.
have sd (x y : G1) tr pn : exists2 s, compute_g2_s bf rg ser x y tr pn = s *: g2 & s != 0.
  have [s hs] := gen2 (compute_g2_s bf rg ser x y tr pn); exists s => //.
  by apply: contra (seeds (bf (pn :: tr))) => /eqP s0; move: hs; rewrite s0 scale0r /compute_g2_s /= => ->.
have [x1 c1 x10] := sd (pok_g1_s (tp_tau p)) (pok_g1_s_x (tp_tau p)) (tt (tau_state n t al b)) tau_personalization.
have [x2 c2 x20] := sd (pok_g1_s (tp_alpha p)) (pok_g1_s_x (tp_alpha p)) (tt (tau_state n t al b)) alpha_personalization.
have [x3 c3 x30] := sd (pok_g1_s (tp_beta p)) (pok_g1_s_x (tp_beta p)) (tt (tau_state n t al b)) beta_personalization.
have [y1 d1] := gen2 (pok_g2_s_x (tp_tau p)).
have [y2 d2] := gen2 (pok_g2_s_x (tp_alpha p)).
have [y3 d3] := gen2 (pok_g2_s_x (tp_beta p)).
have inv := verify_inv (u5 := u5) n2 s1 s2 sa sb c1 c2 c3 d1 d2 d3.
have [k1|k1] := boolP (all (fun x => x == 0) (defects (nth 0 u2 1) u1)); last first.
  by right; apply: combo_rarely k1 _ => rnd /inv[_ [_ h _ _ _]]; exact: h.
have [k2|k2] := boolP (all (fun x => x == 0) (defects (nth 0 u1 1) u2)); last first.
  by right; apply: combo_rarely k2 _ => rnd /inv[_ [_ _ h _ _]]; exact: h.
have [k3|k3] := boolP (all (fun x => x == 0) (defects (nth 0 u2 1) ua)); last first.
  by right; apply: combo_rarely k3 _ => rnd /inv[_ [_ _ _ h _]]; exact: h.
have [k4|k4] := boolP (all (fun x => x == 0) (defects (nth 0 u2 1) ub)); last first.
  by right; apply: combo_rarely k4 _ => rnd /inv[_ [_ _ _ _ h]]; exact: h.
pose D := [&& nth 0 u1 0 == 1, nth 0 u2 0 == 1, t * y1 == nth 0 u1 1 * x1, al * y2 == nth 0 ua 0 * x2, b * y3 == nth 0 ub 0 * x3 & b * u5 == nth 0 ub 0 * b].
have [hD|hD] := boolP D; last first.
  right; exists 0%N => rnd c /inv[[i1 i2 i3 i4 i5] [i6 _ _ _ _]] _.
  by case/negP: hD; rewrite /D i1 i2 i3 i4 i5 i6 !eqxx.
case/and5P: hD => /eqP i1 /eqP i2 /eqP i3 /eqP i4 /andP[/eqP i5 /eqP i6].
left; exists (y1 / x1), (y2 / x2), (y3 / x3).
have v1 : t * (y1 / x1) = nth 0 u1 1 by rewrite mulrA i3 mulfK.
have v2 : al * (y2 / x2) = nth 0 ua 0 by rewrite mulrA i4 mulfK.
have v3 : b * (y3 / x3) = nth 0 ub 0 by rewrite mulrA i5 mulfK.
have v5 : u5 = nth 0 ub 0 by apply: (mulfI b0); rewrite i6 mulrC.
rewrite v1 v2 v3 v5.
have z1 : (0 < size u1)%N by rewrite s1; apply: ltn_trans m1.
have z2 : (0 < size u2)%N by rewrite s2.
have za : (0 < size ua)%N by rewrite sa.
have zb : (0 < size ub)%N by rewrite sb.
have q1 := defects0 z1 k1; have q2 := defects0 z2 k2; have qa := defects0 za k3; have qb := defects0 zb k4.
have tt21 : nth 0 u1 1 = nth 0 u2 1.
  by rewrite q1 nth_mkseq ?s1 // i1 mul1r expr1.
rewrite /tau_state; congr TauAccumulator.
- by rewrite {1}q1 map_mkseq_gen s1 i1 -tt21.
- by rewrite {1}q2 map_mkseq_gen s2 i2.
- by rewrite {1}qa map_mkseq_gen sa -tt21.
by rewrite {1}qb map_mkseq_gen sb -tt21.
Qed.
End Ceremony.

(** ** the result *)
Section Result.
Variables (F : fieldType) (G1 G2 : lmodType F) (g1 : G1) (g2 : G2).

Lemma take_mkseq (T : Type) (f : nat -> T) m n : (m <= n)%N -> take m (mkseq f n) = mkseq f m.
Proof. by move=> mn; rewrite /mkseq -map_take take_iota (minn_idPl mn). Qed.

Lemma multiexp_powers (V : lmodType F) (g : V) (c t : F) (u : seq F) :
  multiexp (mkseq (fun i => (c * t ^+ i) *: g) (size u)) u = (c * (Poly u).[t]) *: g.
Proof.
rewrite -(inner_powers t (erefl (size u))) (@inner_productE _ _ _ (size u)) ?size_powers //.
have -> : mkseq (fun i => (c * t ^+ i) *: g) (size u) = [seq x *: g | x <- mkseq (fun i => c * t ^+ i) (size u)].
  by rewrite /mkseq -map_comp.
rewrite multiexp_gen size_mkseq minnn; congr (_ *: _); rewrite big_distrr /=; apply: eq_bigr => i _.
by rewrite nth_mkseq // nth_powers // mulrA.
Qed.

Lemma group_lagrangeE (V : lmodType F) (g : V) (c t : F) dom k : (size dom <= k)%N ->
  group_lagrange dom (mkseq (fun i => (c * t ^+ i) *: g) k) =
  Some [seq (c * lagrange_eval dom t i) *: g | i <- iota 0 (size dom)].
Proof.
move=> dk; rewrite /group_lagrange size_mkseq dk take_mkseq //; congr Some.
apply/eq_in_map => i; rewrite mem_iota add0n => hi.
by rewrite -{1}(size_lagrange_coefs hi) multiexp_powers lagrange_coefs_horner.
Qed.

Lemma iotaS_rcons m : iota 0 m.+1 = rcons (iota 0 m) m.
Proof. by rewrite -addn1 iotaD add0n cats1. Qed.

Lemma tau_h_entryE (t : F) Z k i : (i + size Z <= k)%N ->
  tau_h_entry Z (mkseq (fun j => (1 * t ^+ j) *: g1) k) i = Some ((t ^+ i * (Poly Z).[t]) *: g1).
Proof.
move=> hk; rewrite /tau_h_entry.
have h m : (m <= size Z)%N -> ofold (fun (acc : G1) j =>
    if nth 0 Z j == 0 then Some acc
    else obnd (vget (mkseq (fun j => (1 * t ^+ j) *: g1) k) (i + j)) (fun x => Some (acc + nth 0 Z j *: x)))
  0 (iota 0 m) = Some ((\sum_(j < m) t ^+ i * (nth 0 Z j * t ^+ j)) *: g1).
  elim: m => [|m IH] hm; first by rewrite big_ord0 scale0r.
  rewrite big_ord_recr iotaS_rcons ofold_rcons IH 1?ltnW //=.
  case: eqP => [->|_]; first by rewrite mul0r mulr0 addr0.
  rewrite vget_mkseq; last by apply: leq_trans hk; rewrite ltn_add2l.
  by rewrite /= mul1r scalerA -scalerDl exprD mulrCA.
rewrite h //; congr (Some (_ *: _)).
rewrite -(inner_powers t (erefl (size Z))) (@inner_productE _ _ _ (size Z)) ?size_powers // big_distrr /=.
by apply: eq_bigr => j _; rewrite nth_powers // [nth 0 Z j * _]mulrC.
Qed.

Lemma tau_hE (t : F) Z k idx : (forall i, i \in idx -> i + size Z <= k)%N ->
  tau_h Z (mkseq (fun j => (1 * t ^+ j) *: g1) k) idx = Some [seq (t ^+ i * (Poly Z).[t]) *: g1 | i <- idx].
Proof.
elim: idx => [|i idx IH] h //=.
rewrite tau_h_entryE ?IH //=; last by apply: h; rewrite inE eqxx.
by move=> j hj; apply: h; rewrite inE hj orbT.
Qed.

(** The result for the secrets tau, alpha, beta. *)
Definition tau_result_for (dom : seq F) (t al b : F) : tau_result G1 G2 :=
  TauResult (al *: g1) (b *: g1) (b *: g2)
    [seq lagrange_eval dom t i *: g1 | i <- iota 0 (size dom)] [seq lagrange_eval dom t i *: g2 | i <- iota 0 (size dom)]
    [seq (al * lagrange_eval dom t i) *: g1 | i <- iota 0 (size dom)]
    [seq (b * lagrange_eval dom t i) *: g1 | i <- iota 0 (size dom)]
    [seq (t ^+ i * zeval dom t) *: g1 | i <- iota 0 (size dom - 1)].

Lemma from_accumulatorE n dom t al b : (0 < size dom)%N -> (size dom <= n)%N ->
  tau_from_accumulator n dom (size dom) (tau_state g1 g2 n t al b) = Some (tau_result_for dom t al b).
Proof.
move=> d0 dn; have n0 : (0 < n)%N by apply: leq_trans dn.
have dn2 : (size dom <= n.*2 - 1)%N by rewrite -addnn; slia.
rewrite /tau_from_accumulator /tau_state [ta_tau_g1 _]/= [ta_tau_g2 _]/= [ta_alpha_g1 _]/= [ta_beta_g1 _]/= [ta_beta_g2 _]/=.
rewrite !vget_mkseq // /obnd dn !group_lagrangeE // tau_hE; last first.
  move=> i; rewrite mem_iota add0n size_zcoefs => /andP[_ hi]; rewrite -addnn; slia.
rewrite /tau_result_for !expr0 !mulr1 zevalE Poly_zcoefs.
by congr (Some (TauResult _ _ _ _ _ _ _ _)); apply: eq_map => i; rewrite mul1r.
Qed.
End Result.
