(** C54: Groth16 is knowledge sound against provers that combine the group elements of the key linearly. *)
From mathcomp Require Import all_ssreflect all_algebra.
From Verif.Model Require Import Base LinearCombination ConstraintSystems Domain ArithmeticPrograms KnowledgeCommitment Groth16.
From Verif.Spec Require Import LinearSpec GroupSpec AlgebraicSpec.
From Verif.Proofs Require Import FieldTac LinearProofs DomainProofs QapProofs KcProofs Groth16Proofs PghrProofs UscsSnarkProofs
  SeSnarkProofs Groth16Extract.
From Verif.Props Require Import C02_R1csSemantics C05_R1csToQap C08_Groth16Complete.
Set Implicit Arguments.
Unset Strict Implicit.
Unset Printing Implicit Defensive.
Import GRing.Theory.
Local Open Scope ring_scope.

Section C54.
Variables (F : fieldType) (G1 G2 GT : lmodType F) (e : G1 -> G2 -> GT).
Add Field Ff_c54 : (@ffield_theory F).

(** Every element of G1 a prover sees: those of the proving and the verification key, and the generator. *)
Definition g16_elements1 (pk : g16_proving_key G1 G2) (vk : g16_verification_key G1 G2 GT) (g1 : G1) : seq G1 :=
  pk_L_query pk ++ pk_H_query pk ++ [:: pk_alpha_g1 pk; pk_beta_g1 pk; pk_delta_g1 pk] ++ pk_A_query pk
  ++ [seq v.2 | v <- kv_values (pk_B_query pk)] ++ (vk_gamma_ABC_first vk :: vk_gamma_ABC_rest vk) ++ [:: g1].
(** Every element of G2 a prover sees. *)
Definition g16_elements2 (pk : g16_proving_key G1 G2) (vk : g16_verification_key G1 G2 GT) (g2 : G2) : seq G2 :=
  [:: pk_beta_g2 pk; pk_delta_g2 pk; vk_gamma_g2 vk] ++ [seq v.1 | v <- kv_values (pk_B_query pk)] ++ [:: g2].

(** A prover that answers with A = <cA, G1 elements>, B = <cB, G2 elements>, C = <cC, G1 elements> and is accepted by the
    strong verifier for the claimed input, for some gamma, more than 2 * |dom| evaluation points, two alphas, three
    betas and three deltas, knows a satisfying assignment: the coefficients of cC on the L query. *)
Theorem C54_extracts (cs : r1cs F) (dom : seq F) (g1 : G1) (g2 : G2) (gamma : F) (chunks : nat)
    (primary cA cB cC ts alphas betas deltas : seq F) :
  bilinear e -> e g1 g2 != 0 ->
  r1cs_wf cs -> uniq dom -> (r_num_constraints cs + r_num_inputs cs + 1 <= size dom)%N -> gamma != 0 ->
  uniq ts -> (2 * size dom < size ts)%N -> uniq alphas -> (1 < size alphas)%N -> uniq betas -> (2 < size betas)%N ->
  uniq deltas -> (2 < size deltas)%N -> 0 \notin deltas ->
  (forall t alpha beta delta, t \in ts -> alpha \in alphas -> beta \in betas -> delta \in deltas -> exists pk vk,
     g16_generator e dom cs t alpha beta gamma delta g1 g2 chunks = Some (pk, vk) /\
     g16_verify_strong e vk primary (G16Proof (lin cA (g16_elements1 pk vk g1)) (lin cB (g16_elements2 pk vk g2))
                                              (lin cC (g16_elements1 pk vk g1))) = Some true) ->
  r_is_satisfied cs primary (mkseq (nth 0 cC) (r_num_variables cs - r_num_inputs cs)) = Some true.
Proof.
move=> be u0 wf udom ldom g0 uts lts uas las ubs lbs uds lds d0 h.
set n := r_num_variables cs; set ni := r_num_inputs cs.
have lni : (ni <= n)%N := leq_addr _ _.
have [h1 h2 h3 h4] := scs_basic wf.
have sp : size primary = ni.
  case: (ts) lts h => // t0 ts' _ h; case: (alphas) las h => // a0 as' _ h; case: (betas) lbs h => // b0 bs' _ h.
  case: (deltas) lds h => // d0' ds' _ h.
  have [pk [vk [hg]]] := h t0 a0 b0 d0' (mem_head _ _) (mem_head _ _) (mem_head _ _) (mem_head _ _).
  have [q [Eq [_ [qi _ _ _ _]]]] := qap_shape wf ldom t0.
  move: hg; rewrite /g16_generator Eq {1}/obnd kc_batch_expE {1}/obnd => -[_ <-].
  rewrite /g16_verify_strong /g16_verify_strong_online [pvk_ABC_rest _]/= size_map size_map size_iota qi.
  by case: eqP => //=.
pose x := primary ++ g16_aux cs cC.
have sx : size x = n by rewrite size_cat sp size_mkseq subnKC.
have tx : take ni x = primary by rewrite take_size_cat.
have dx : drop ni x = mkseq (nth 0 cC) (n - ni) by rewrite drop_size_cat.
have [|_ _ _ _ <-] := @scs_facts _ cs wf primary (mkseq (nth 0 cC) (n - ni)); first by rewrite size_mkseq sp subnKC.
have ld : (r_num_constraints (swap_AB_if_beneficial cs) + r_num_inputs (swap_AB_if_beneficial cs) + 1 <= size dom)%N
  by rewrite h1 h3.
have := @C05_sound _ _ dom h4 udom ld (QapWitness n (size dom) ni 0 0 0 x (g16_h cs dom cC)) ts uts lts.
rewrite h1 -/ni /= tx dx; apply=> t ht.
have [q [Eq [[sA sB sC] [qi qv qH qZ qd]]]] := qap_shape wf ldom t.
exists q => //.
have [q' [[Eq' qD qt] _]] := qap_eval_spec h4 ld t.
move: Eq'; rewrite Eq => -[Eq']; rewrite -Eq' {q' Eq'} in qD qt.
apply: (sat_conv (t := t)) => //; first by rewrite size_mkseq.
have [k1 k2 k3] := @g16_coef _ cs dom t gamma q cC _ sp.
have {}k1 : part (qe_Bt q) x ni.+1 n.+1 = co cC (vecs1 cs dom t gamma q) (@v_p1 F) by rewrite k1.
have {}k2 : part (qe_At q) x ni.+1 n.+1 = co cC (vecs1 cs dom t gamma q) (@v_q1 F) by rewrite k2.
rewrite !(part_split cs) -/n -/ni k1 k2.
have [bb [bd [b0 hB]]] := lin_ev3 cB (vecs2 gamma q).
suff : (part (qe_At q) x 0 ni.+1 + co cC (vecs1 cs dom t gamma q) (@v_q1 F))
   * (part (qe_Bt q) x 0 ni.+1 + co cC (vecs1 cs dom t gamma q) (@v_p1 F))
   = part (qe_Ct q) x 0 ni.+1 + co cC (vecs1 cs dom t gamma q) (@v_r1 F).
  by move=> ->; rewrite k3 -/x -/n -/ni; fring F.
pose cf c f := co c (vecs1 cs dom t gamma q) f.
apply: (@g16_algebra F (cf cA (@v_p0 F)) (cf cA (@v_p1 F)) (cf cA (@v_q0 F)) (cf cA (@v_q1 F)) (cf cA (@v_r0 F))
  (cf cA (@v_r1 F)) (cf cA (@v_r2 F)) (cf cC (@v_p0 F)) _ (cf cC (@v_q0 F)) _ (cf cC (@v_r0 F)) _ (cf cC (@v_r2 F))
  bb bd b0 _ _ _ _ _ _ uas las ubs lbs uds lds d0).
move=> a b d ha hb hd; have d0' : d != 0 by apply: contraNneq d0 => <-.
have [pk [vk [hg]]] := h t a b d ht ha hb hd.
have [e1 e2] := g16_els wf ldom Eq g0 d0' hg.
rewrite /g16_elements1 /g16_elements2 e1 e2 !lin_batch !lin_ev7 hB.
move: hg; rewrite /g16_generator Eq {1}/obnd kc_batch_expE {1}/obnd => -[_ <-].
rewrite /g16_verify_strong /g16_verify_strong_online /g16_verify_weak_online.
cbn [process_verification_key pvk_ABC_rest pvk_ABC_first pvk_gamma_g2 pvk_delta_g2 pvk_alpha_g1_beta_g2 pr_A pr_B pr_C
  vk_alpha_g1_beta_g2 vk_gamma_g2 vk_delta_g2 vk_gamma_ABC_first vk_gamma_ABC_rest].
rewrite size_map size_map size_iota qi -/ni sp eqxx leqnn /=.
have -> : batch_exp g1 [seq abc_at a b q i / gamma | i <- iota 1 ni] = [seq (abc_at a b q i / gamma) *: g1 | i <- iota 1 ni].
  by rewrite /batch_exp -map_comp.
rewrite (accumulate_IC _ _ _ _ _ (g16_aux cs cC) sp) -/x.
rewrite !(e_scalel be) !(e_scaler be) !scalerA -!scalerDl -scalerBl.
case: eqP => // /eqP; rewrite -subr_eq0 -scalerBl scaler_eq0 (negPf u0) orbF => /eqP hh _.
apply/eqP; rewrite -subr_eq0 -hh; apply/eqP.
rewrite /ICval ABC_sum.
rewrite /cf /ni {hh}; move: (part _ _ _ _) (part _ _ _ _) (part _ _ _ _) => p1 p2 p3.
rewrite divfK //; set U := (_ * (bb * b + bd * d + b0)); set C := (a * _ + b * _ + _); clearbody U C; fring F.
Qed.
End C54.

(** The honest strategy (r = s = 0) as coefficients for the system x1 * x2 = x3 of C05 with one public input over F_17:
    accepted for nine evaluation points, two alphas, three betas and three deltas. *)
Definition C54_lin (c els : seq C05_F) : C05_F := foldr (fun (p : C05_F * C05_F) s => p.1 * p.2 + s) 0 (zip c els).
Definition C54_strategy (x H : seq C05_F) (t alpha beta delta : C05_F) : option bool :=
  obnd (@g16_generator _ C08_V C08_V C08_V C08_e C05_dom C05_sys t alpha beta 8%:R delta (1 : C05_F) (3%:R : C05_F) 1) (fun k =>
    let els1 : seq C05_F := g16_elements1 k.1 k.2 (1 : C05_F) in
    let els2 : seq C05_F := g16_elements2 k.1 k.2 (3%:R : C05_F) in
    let sup := kv_indices (pk_B_query k.1) in
    let A := C54_lin (nseq 5 0 ++ [:: 1; 0; 0] ++ 1 :: x) els1 in
    let B := C54_lin ([:: 1; 0; 0] ++ [seq nth 0 (1 :: x) i | i <- sup]) els2 in
    let C := C54_lin (drop 1 x ++ take 3 H) els1 in
    g16_verify_strong C08_e k.2 (take 1 x) (G16Proof (A : C08_V) (B : C08_V) (C : C08_V))).
Example C54_strategy_witness :
  let w := qap_witness_map C05_dom 3%:R C05_sys [:: 2%:R] [:: 3%:R; 6%:R] 0 0 0 in
  let x := oapp (@qw_ABCs _) [::] w in let H := oapp (@qw_H _) [::] w in
  let ts := [:: 0; 2; 3; 5; 6; 7; 8; 9; 10]%N in
  all (fun t => all (fun a => all (fun b => all (fun d => C54_strategy x H t%:R a%:R b%:R d%:R == Some true)
       [:: 1; 2; 3]%N) [:: 1; 2; 3]%N) [:: 1; 2]%N) ts
  /\ ~~ all (fun t => C54_strategy [:: 2%:R; 3%:R; 7%:R] H t%:R 1 1 1 == Some true) ts.
Proof. by vm_compute. Qed.

Print Assumptions C54_extracts.
