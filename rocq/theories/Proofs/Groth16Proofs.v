(** Groth16: the key and the honest proof in closed form. *)
From mathcomp Require Import all_ssreflect all_algebra.
From Verif.Model Require Import Base LinearCombination ConstraintSystems Domain ArithmeticPrograms KnowledgeCommitment Groth16.
From Verif.Spec Require Import LinearSpec GroupSpec.
From Verif.Proofs Require Import NatTac FieldTac LinearProofs DomainProofs ProgramProofs QapProofs KcProofs.
From Verif.Props Require Import C02_R1csSemantics.
Set Implicit Arguments.
Unset Strict Implicit.
Unset Printing Implicit Defensive.
Import GRing.Theory.
Local Open Scope ring_scope.

Section G16.
Variables (F : fieldType) (G1 G2 GT : lmodType F).
Variable e : G1 -> G2 -> GT.
Add Field Ff_g16 : (@ffield_theory F).
Variables (cs : r1cs F) (dom : seq F) (gen : F).
Hypothesis wf : r1cs_wf cs.
Hypothesis udom : uniq dom.
Hypothesis ldom : (r_num_constraints cs + r_num_inputs cs + 1 <= size dom)%N.
Notation scs := (swap_AB_if_beneficial cs).
Notation n := (r_num_variables cs).
Notation ni := (r_num_inputs cs).
Notation m := (size dom).
Variables (t alpha beta gamma delta : F) (g1 : G1) (g2 : G2) (chunks : nat).

(** sum of [u_i * x_i] for lo <= i < hi, with x_0 = 1 *)
Definition part (u x : seq F) lo hi : F := \sum_(lo <= i < hi) nth 0 u i * nth 0 (1 :: x) i.

Lemma part_head (u x : seq F) : size u = n.+1 -> size x = n ->
  head 0 u + inner_product (behead u) x = part u x 0 n.+1.
Proof.
case: u => // c u [su] sx; rewrite /part big_nat_recl //= mulr1; congr (_ + _).
by rewrite (inner_productE su sx) big_mkord.
Qed.

Lemma multiexp_part (V : lmodType F) (b : V) (u x : seq F) : size u = n.+1 -> size x = n ->
  multiexp (batch_exp b u) (1 :: x) = part u x 0 n.+1 *: b.
Proof.
by move=> su sx; rewrite multiexp_scale su /= sx minnn /part big_mkord.
Qed.

Lemma scs_facts primary auxiliary : (size primary + size auxiliary)%N = n ->
  [/\ r_num_inputs scs = ni, r_num_variables scs = n, r_num_constraints scs = r_num_constraints cs, r1cs_wf scs
    & r_is_satisfied scs primary auxiliary = r_is_satisfied cs primary auxiliary].
Proof. exact: C02_swap_AB. Qed.

Lemma scs_basic : [/\ r_num_inputs scs = ni, r_num_variables scs = n, r_num_constraints scs = r_num_constraints cs
  & r1cs_wf scs].
Proof.
have [|h1 h2 h3 h4 _] := @scs_facts (nseq ni 0) (nseq (n - ni) 0) => //.
by rewrite !size_nseq subnKC // leq_addr.
Qed.

(** The shape of the evaluated QAP. *)
Lemma qap_shape : exists q, qap_instance_map_with_evaluation dom scs t = Some q
  /\ [/\ size (qe_At q) = n.+1, size (qe_Bt q) = n.+1 & size (qe_Ct q) = n.+1]
  /\ [/\ qe_num_inputs q = ni, qe_num_variables q = n, qe_Ht q = powers t m.+1, qe_Zt q = zeval dom t & qe_degree q = m].
Proof.
have [h1 h2 h3 h4] := scs_basic.
have ld : (r_num_constraints scs + r_num_inputs scs + 1 <= size dom)%N by rewrite h1 h3.
have [q [[e1 _ _] _]] := qap_eval_spec h4 ld t; exists q; split=> //.
move: e1; rewrite /qap_instance_map_with_evaluation.
have [At0 [At [-> /= -> sA _]]] := A_eval h4 ld t.
have [Bt [-> sB _]] := side_eval ld t (side_rb h4).
have [Ct [-> sC _]] := side_eval ld t (side_rc h4).
by rewrite /= -h1 -h2 => -[<-] /=.
Qed.

Definition ICval (q : qap_eval F) (x : seq F) (hi : nat) : F :=
  \sum_(0 <= i < hi) abc_at alpha beta q i * nth 0 (1 :: x) i.

Hypothesis gamma0 : gamma != 0.
Hypothesis delta0 : delta != 0.
Hypothesis gen0 : gen != 0.
Hypothesis genz : forall x, x \in dom -> gen * x \notin dom.

Lemma ABC_sum q x lo hi : \sum_(lo <= i < hi) abc_at alpha beta q i * nth 0 (1 :: x) i
  = beta * part (qe_At q) x lo hi + alpha * part (qe_Bt q) x lo hi + part (qe_Ct q) x lo hi.
Proof.
rewrite /part !mulr_sumr -!big_split /=; apply: eq_bigr => i _.
by rewrite /abc_at; move: (nth 0 _ i) (nth 0 _ i) (nth 0 _ i) (nth 0 _ i) => a b c d; fring F.
Qed.

Lemma m_gt0' : (0 < m)%N. Proof. by rewrite (leq_trans _ ldom) // addn1. Qed.

Lemma sat_main q (w : qap_witness F) x : size (qe_At q) = n.+1 -> size (qe_Bt q) = n.+1 -> size (qe_Ct q) = n.+1 ->
  qe_num_inputs q = ni -> qe_num_variables q = n -> qe_Ht q = powers t m.+1 -> qe_Zt q = zeval dom t -> qe_degree q = m ->
  qw_ABCs w = x -> size x = n -> qw_d1 w = 0 -> qw_d2 w = 0 -> qw_d3 w = 0 -> size (qw_H w) = m.+1 ->
  qap_eval_is_satisfied q w ->
  [/\ n = qw_num_variables w, m = qw_degree w, ni = qw_num_inputs w &
   part (qe_At q) x 0 n.+1 * part (qe_Bt q) x 0 n.+1 - part (qe_Ct q) x 0 n.+1 = (Poly (qw_H w)).[t] * zeval dom t].
Proof.
move=> sA sB sC qi qv qH qZ qd e2 sx e3 e4 e5 e7; rewrite /qap_eval_is_satisfied.
rewrite qv qd qi e2 sx eqxx sA sB sC eqxx qH qZ e7 eqxx e3 e4 e5.
have := size_powers t m.+1; have := @inner_powers _ t m.+1 _ e7.
move: (powers t m.+1) => Ht hH sH; rewrite sH eqxx /=.
case: (eqVneq n _) => //= wn; case: (eqVneq m _) => //= wm; case: (eqVneq ni _) => //= wi.
case: (zeval dom t != _) => //=.
by rewrite !mul0r !addr0 !part_head // add0r hH; case: eqP.
Qed.

Lemma mulHq H : size H = m.+1 -> (size (Poly H) <= m.-1)%N ->
  multiexp (take (m - 1) (batch_exp_with_coeff g1 (zeval dom t / delta) (take (size (powers t m.+1) - 2) (powers t m.+1))))
     (take (m - 1) H) = ((Poly H).[t] * zeval dom t / delta) *: g1.
Proof.
move=> sH dH; rewrite size_powers subSS.
have -> : batch_exp_with_coeff g1 (zeval dom t / delta) (take (m - 1) (powers t m.+1))
   = [seq c *: g1 | c <- [seq zeval dom t / delta * y | y <- take (m - 1) (powers t m.+1)]].
  by rewrite -map_comp.
have sT : size [seq zeval dom t / delta * y | y <- take (m - 1) (powers t m.+1)] = (m - 1)%N.
  by rewrite size_map size_takel // size_powers; slia.
rewrite take_oversize; last by rewrite size_map sT.
rewrite multiexp_scale sT size_takel ?sH; last by slia.
rewrite minnn; congr (_ *: _); rewrite (horner_coef_wide _ dH) mulr_suml mulr_suml -subn1.
apply: eq_bigr => i _; rewrite (nth_map 0) ?size_takel ?size_powers //; last by slia.
rewrite !nth_take // nth_powers; last by rewrite (leq_trans (ltn_ord i)) //; slia.
by rewrite coef_Poly; move: (zeval dom t) (t ^+ i) (nth 0 H i) => z y c; ffield F.
Qed.

Lemma mulLq q x : size x = n ->
  multiexp (batch_exp g1 [seq abc_at alpha beta q (ni.+1 + i) / delta | i <- iota 0 (n - ni)])
     (take (n - ni) (drop ni x)) = ((ICval q x n.+1 - ICval q x ni.+1) / delta) *: g1.
Proof.
move=> sx; have lni : (ni <= n)%N by apply: leq_addr.
rewrite multiexp_scale size_map size_iota size_takel ?size_drop ?sx // minnn; congr (_ *: _).
rewrite /ICval (@big_cat_nat _ _ _ ni.+1 0 n.+1) //= addrC addKr mulr_suml.
rewrite -{2}[ni.+1]add0n big_addn subSS big_mkord; apply: eq_bigr => i _.
rewrite (nth_map 0%N) ?size_iota // nth_iota // add0n nth_take // nth_drop [(i + _)%N]addnC /=.
by move: (abc_at _ _ _ _) (nth _ _ _) => a b; ffield F.
Qed.

(** The key, and the honest proof in closed form: [C] is what the verification equation forces. *)
Lemma g16_closed : exists pk vk q,
  [/\ g16_generator e dom cs t alpha beta gamma delta g1 g2 chunks = Some (pk, vk),
   [/\ vk_alpha_g1_beta_g2 vk = e (alpha *: g1) (beta *: g2), vk_gamma_g2 vk = gamma *: g2,
     vk_delta_g2 vk = delta *: g2, vk_gamma_ABC_first vk = (abc_at alpha beta q 0 / gamma) *: g1
     & vk_gamma_ABC_rest vk = [seq (abc_at alpha beta q i / gamma) *: g1 | i <- iota 1 ni]]
   & forall primary auxiliary r s,
     size primary = ni -> (size primary + size auxiliary)%N = n ->
     r_is_satisfied cs primary auxiliary = Some true ->
     let x := primary ++ auxiliary in
     let A := alpha + part (qe_At q) x 0 n.+1 + r * delta in
     let B := beta + part (qe_Bt q) x 0 n.+1 + s * delta in
     g16_prover dom gen pk primary auxiliary r s =
     Some (G16Proof (A *: g1) (B *: g2) (((A * B - alpha * beta - ICval q x ni.+1) / delta) *: g1))].
Proof.
have [h1 h2 h3 h4] := scs_basic.
have ld : (r_num_constraints scs + r_num_inputs scs + 1 <= size dom)%N by rewrite h1 h3.
have [q [eq [[sA sB sC] [qi qv qH qZ qd]]]] := qap_shape.
have lni : (ni <= n)%N by apply: leq_addr.
rewrite /g16_generator eq /= kc_batch_expE /=.
eexists; eexists; exists q; split; [reflexivity | by rewrite qi; split=> //; rewrite /batch_exp -map_comp |].
move=> primary auxiliary r s sp sz sat.
set x := primary ++ auxiliary; set A := (alpha + _ + _); set B := (beta + _ + _).
have sx : size x = n by rewrite size_cat.
have [_ _ _ _ ss] := scs_facts sz.
have hsat : forall k, k \in r_constraints scs -> denote (ra k) x * denote (rb k) x = denote (rc k) x.
  have [||b [eb hb]] := @C02_r1cs_is_satisfied _ scs primary auxiliary h4; rewrite ?h1 ?h2 //.
  by move: eb; rewrite ss sat => -[eb]; apply: hb.1; rewrite -eb.
have [|w [e1 e2 [e3 e4 e5 e6 e7] e8 e9]] := @qap_complete _ scs h4 dom udom ld gen gen0 genz primary auxiliary 0 0 0 _ hsat.
  by rewrite h2.
rewrite /g16_prover /= e1 /=.
have [q' [eq' hs]] := e9 t; move: eq'; rewrite eq => -[eq']; rewrite -eq' {q' eq'} in hs.
have [wn wm wi main] := sat_main sA sB sC qi qv qH qZ qd e2 sx e3 e4 e5 e7 hs.
rewrite e2 -/x -wn -wm -wi qi qv qH qZ.
rewrite (@take_oversize _ n.+1 (batch_exp g1 (qe_At q))); last by rewrite size_map sA.
rewrite (@take_oversize _ n x) ?sx // multiexp_part //.
have l1 : (n.+1 <= 0 + size (1%R :: x))%N by rewrite /= sx.
have l2 : (n.+1 <= size (qe_Bt q))%N by rewrite sB.
have := kc_multiexp_batch g2 g1 1 1 chunks l1 l2; rewrite kc_batch_expE {1}/obnd => ->.
cbv beta iota delta [obnd fst snd]; rewrite !mul1r.
have eB : \sum_(0 <= i < n.+1) nth 0 (qe_Bt q) i * nth 0 (1 :: x) (i - 0) = part (qe_Bt q) x 0 n.+1.
  by apply: eq_bigr => i _; rewrite subn0.
rewrite eB -/(part (qe_Bt q) x 0 n.+1).
rewrite (mulHq e7 (e8 erefl erefl erefl)) (mulLq q sx).
congr (Some (G16Proof _ _ _)).
- by rewrite !scalerA -!scalerDl.
- by rewrite !scalerA -!scalerDl.
rewrite !scalerA -!scalerDl !scalerA -!scalerDl -scaleNr -scalerDl; congr (_ *: _).
rewrite -/A -/B {1}/ICval ABC_sum -/(ICval q x ni.+1).
move: main; rewrite /A /B.
move: (part _ _ _ _) (part _ _ _ _) (part _ _ _ _) (ICval _ _ _) (horner _ _ * _) => a b c I h <-.
ffield F.
Qed.

Lemma accumulate_IC q primary auxiliary : size primary = ni ->
  accumulate_chunk ((abc_at alpha beta q 0 / gamma) *: g1) [seq (abc_at alpha beta q i / gamma) *: g1 | i <- iota 1 ni] primary
  = (ICval q (primary ++ auxiliary) ni.+1 / gamma) *: g1.
Proof.
move=> sp; rewrite /accumulate_chunk take_oversize; last by rewrite size_map size_iota sp.
have -> : [seq (abc_at alpha beta q i / gamma) *: g1 | i <- iota 1 ni]
  = [seq c *: g1 | c <- [seq abc_at alpha beta q i / gamma | i <- iota 1 ni]] by rewrite -map_comp.
rewrite multiexp_scale size_map size_iota sp minnn -scalerDl; congr (_ *: _).
rewrite /ICval big_nat_recl //= mulr1 mulrDl big_mkord; congr (_ + _).
rewrite mulr_suml; apply: eq_bigr => i _.
rewrite (nth_map 0%N) ?size_iota // nth_iota // add1n nth_cat sp ltn_ord.
by rewrite mulrAC.
Qed.
End G16.
