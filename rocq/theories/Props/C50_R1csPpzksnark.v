(** C50: the R1CS ppzkSNARK: honest proofs are accepted, do not depend on the witness, and the verifiers decide exactly
    the published equations. *)
From mathcomp Require Import all_ssreflect all_algebra.
From Verif.Model Require Import Base LinearCombination ConstraintSystems Domain ArithmeticPrograms KnowledgeCommitment
  Groth16 OrderedMap Pghr.
From Verif.Spec Require Import LinearSpec GroupSpec AlgebraicSpec.
From Verif.Proofs Require Import FieldTac LinearProofs DomainProofs QapProofs KcProofs Groth16Proofs PghrProofs
  UscsSnarkProofs SeSnarkProofs Groth16Extract PghrExtract.
From Verif.Props Require Import C02_R1csSemantics C05_R1csToQap C08_Groth16Complete.
Set Implicit Arguments.
Unset Strict Implicit.
Unset Printing Implicit Defensive.
Import GRing.Theory.
Local Open Scope ring_scope.

Section C50.
Variables (F : fieldType) (G1 G2 GT : lmodType F) (e : G1 -> G2 -> GT).
Add Field Ff_c50 : (@ffield_theory F).

(** Completeness: whenever key generation returns, for every satisfying assignment and all randomness the prover
    succeeds and the strong verifier accepts its proof. *)
Theorem C50_complete (asserts : bool) (cs : r1cs F) (dom : seq F) (gen t alphaA alphaB alphaC rA rB beta gamma : F) (g1 : G1) (g2 : G2)
    (chunks : nat) pk vk :
  bilinear e -> r1cs_wf cs -> uniq dom -> (r_num_constraints cs + r_num_inputs cs + 1 <= size dom)%N ->
  gen != 0 -> (forall x, x \in dom -> gen * x \notin dom) ->
  pghr_generator asserts dom cs t alphaA alphaB alphaC rA rB beta gamma g1 g2 chunks = Some (pk, vk) ->
  forall primary auxiliary d1 d2 d3,
    size primary = r_num_inputs cs -> (size primary + size auxiliary)%N = r_num_variables cs ->
    r_is_satisfied cs primary auxiliary = Some true ->
    exists2 pr, pghr_prover dom gen pk primary auxiliary d1 d2 d3 = Some pr &
                pghr_verify_strong e g2 vk primary pr = Some true.
Proof.
move=> be wf udom ldom gen0 genz hg primary auxiliary d1 d2 d3 sp sz sat.
have [q [_ _ hq]] := pghr_closed wf udom ldom asserts t alphaA alphaB alphaC rA rB beta gamma g1 g2 chunks gen0 genz.
have [evk sIC hacc hpr] := hq _ _ hg.
have [h [hh ->]] := hpr _ _ d1 d2 d3 sp sz sat; eexists; first by reflexivity.
rewrite /pghr_verify_strong sIC sp eqxx /pghr_verify_weak sIC sp leqnn (hacc _ auxiliary sp).
move: hh; rewrite (part_split cs (qe_At q)); rewrite evk /=.
set a0 := part (qe_At q) _ 0 (r_num_inputs cs).+1; set a := part (qe_At q) _ _ _.
set b := part (qe_Bt q) _ _ _; set c := part (qe_Ct q) _ _ _; set z := zeval _ _ => hh.
rewrite -!scalerDl !(e_scalel be) !(e_scaler be) !scalerA -!scalerDl -!scalerBl.
move: (e g1 g2) => u.
have Z x : x = 0 -> x *: u == 0 by move=> ->; rewrite scale0r.
rewrite !Z //; try by fring F.
have -> : (rA * (a + d1 * z) + rA * a0) * (rB * (b + d2 * z)) - (h * (rA * rB * z) + rA * rB * (c + d3 * z))
  = rA * rB * ((a0 + a + d1 * z) * (b + d2 * z) - (c + d3 * z) - h * z) by fring F.
by rewrite hh subrr mulr0.
Qed.

(** Key generation returns for all but at most (inputs + 1) * (degree - 1) evaluation points, whatever the other
    draws. *)
Theorem C50_generates (cs : r1cs F) (dom ts : seq F) (g1 : G1) (g2 : G2) (chunks : nat) :
  r1cs_wf cs -> uniq dom -> (r_num_constraints cs + r_num_inputs cs + 1 <= size dom)%N -> uniq ts ->
  (forall t, t \in ts -> exists alphaA alphaB alphaC rA rB beta gamma,
     pghr_generator true dom cs t alphaA alphaB alphaC rA rB beta gamma g1 g2 chunks = None) ->
  (size ts <= (r_num_inputs cs).+1 * (size dom).-1)%N.
Proof.
move=> wf udom ldom uts h; have [h1 h2 h3 h4] := scs_basic wf.
have ld : (r_num_constraints (swap_AB_if_beneficial cs) + r_num_inputs (swap_AB_if_beneficial cs) + 1 <= size dom)%N
  by rewrite h1 h3.
rewrite -h1; apply: (inputs_nonzero h4 udom ld uts) => t q ht hq.
have [aA [aB [aC [rA [rB [be [ga]]]]]]] := h t ht.
have [q' [hq' [[sA _ _] [qi _ _ _ _]]]] := qap_shape wf ldom t.
move: hq; rewrite hq' => -[eq]; rewrite {q'}eq in hq' sA qi.
rewrite /pghr_generator hq' {1}/obnd !kc_batch_expE /obnd qi h1; rewrite implyTb; case: ifP => // hn _.
have e1 : [seq nth 0 (qe_At q) i | i <- iota 0 (r_num_inputs cs).+1]
   = [seq nth 0 (rcons (qe_At q) (qe_Zt q)) i | i <- iota 0 (r_num_inputs cs).+1].
  apply/eq_in_map => i; rewrite mem_iota add0n => /andP[_ hi].
  by rewrite (nth_rcons_lt _ sA) // (leq_trans hi) // ltnS leq_addr.
by rewrite e1 hn.
Qed.

(** For two satisfying witnesses of the same primary input there is a bijection of the randomness that turns each
    proof made with the first witness into the identical proof made with the second, provided the drawn evaluation
    point is not a domain point. *)
Theorem C50_witness_independent (asserts : bool) (cs : r1cs F) (dom : seq F) (gen t alphaA alphaB alphaC rA rB beta gamma : F)
    (g1 : G1) (g2 : G2) (chunks : nat) pk vk :
  r1cs_wf cs -> uniq dom -> (r_num_constraints cs + r_num_inputs cs + 1 <= size dom)%N ->
  gen != 0 -> (forall x, x \in dom -> gen * x \notin dom) -> t \notin dom ->
  pghr_generator asserts dom cs t alphaA alphaB alphaC rA rB beta gamma g1 g2 chunks = Some (pk, vk) ->
  forall primary aux1 aux2,
    size primary = r_num_inputs cs ->
    (size primary + size aux1)%N = r_num_variables cs -> (size primary + size aux2)%N = r_num_variables cs ->
    r_is_satisfied cs primary aux1 = Some true -> r_is_satisfied cs primary aux2 = Some true ->
    exists2 f : F * F * F -> F * F * F, bijective f &
      forall d, exists2 pr, pghr_prover dom gen pk primary aux1 d.1.1 d.1.2 d.2 = Some pr &
                            pghr_prover dom gen pk primary aux2 (f d).1.1 (f d).1.2 (f d).2 = Some pr.
Proof.
move=> wf udom ldom gen0 genz tdom hg primary aux1 aux2 sp sz1 sz2 sat1 sat2.
have [q [_ _ hq]] := pghr_closed wf udom ldom asserts t alphaA alphaB alphaC rA rB beta gamma g1 g2 chunks gen0 genz.
have [_ _ _ hpr] := hq _ _ hg.
have z0 : zeval dom t != 0 by rewrite zeval_eq0.
set z := zeval dom t in z0 hpr.
pose n := r_num_variables cs.
pose a x := part (qe_At q) (primary ++ x) 0 n.+1.
pose b x := part (qe_Bt q) (primary ++ x) 0 n.+1.
pose c x := part (qe_Ct q) (primary ++ x) 0 n.+1.
pose sh x y (d : F * F * F) := (d.1.1 + (a x - a y) / z, d.1.2 + (b x - b y) / z, d.2 + (c x - c y) / z).
exists (sh aux1 aux2).
  exists (sh aux2 aux1) => -[[d1 d2] d3]; rewrite /sh /=; congr (_, _, _);
   [move: (a aux1) (a aux2) | move: (b aux1) (b aux2)| move: (c aux1) (c aux2)
   |move: (a aux1) (a aux2) | move: (b aux1) (b aux2)| move: (c aux1) (c aux2)] => u v; clear -z0; ffield F.
move=> [[d1 d2] d3] /=.
have [h [hh ->]] := hpr _ _ d1 d2 d3 sp sz1 sat1; eexists; first by reflexivity.
have [h' [hh' ->]] := hpr _ _ (d1 + (a aux1 - a aux2) / z) (d2 + (b aux1 - b aux2) / z) (d3 + (c aux1 - c aux2) / z) sp sz2 sat2.
rewrite -/n -/(a aux1) -/(a aux2) -/(b aux1) -/(b aux2) -/(c aux1) -/(c aux2) in hh hh' *.
have sA : part (qe_At q) (primary ++ aux2) (r_num_inputs cs).+1 n.+1 + (d1 + (a aux1 - a aux2) / z) * z
        = part (qe_At q) (primary ++ aux1) (r_num_inputs cs).+1 n.+1 + d1 * z.
  rewrite /a /n !part_split.
  have -> : part (qe_At q) (primary ++ aux2) 0 (r_num_inputs cs).+1 = part (qe_At q) (primary ++ aux1) 0 (r_num_inputs cs).+1.
    by apply: part_eq => // -[|i] //=; rewrite ltnS => hi; rewrite !nth_cat sp hi.
  by move: (part _ _ _ _) (part _ _ _ _) (part _ _ _ _) => u v w; clear -z0; ffield F.
have E u v d : v + (d + (u - v) / z) * z = u + d * z by clear -z0; ffield F.
rewrite !E in hh'; rewrite sA !E.
by have -> : h' = h by apply: (mulIf z0); rewrite -hh -hh'.
Qed.

(** The published verification equations for an input as long as the key's. *)
Definition pghr_equations (g2 : G2) (vk : pghr_verification_key G1 G2) (input : seq F) (pr : pghr_proof G1 G2) : Prop :=
  let vkx := hv_IC_first vk + \sum_(i < size (hv_IC_rest vk)) nth 0 input i *: nth 0 (hv_IC_rest vk) i in
  let A := (hp_A pr).1 in let B := (hp_B pr).1 in let C := (hp_C pr).1 in
  [/\ e A (hv_alphaA_g2 vk) = e (hp_A pr).2 g2,
      e (hv_alphaB_g1 vk) B = e (hp_B pr).2 g2,
      e C (hv_alphaC_g2 vk) = e (hp_C pr).2 g2,
      e (vkx + A) B = e (hp_H pr) (hv_rC_Z_g2 vk) + e C g2
    & e (hp_K pr) (hv_gamma_g2 vk) = e (vkx + A + C) (hv_gamma_beta_g2 vk) + e (hv_gamma_beta_g1 vk) B].

(** The weak verifier on an input not longer than the key accepts exactly when the equations hold for the input
    padded with zeros. *)
Theorem C50_weak_exact (g2 : G2) (vk : pghr_verification_key G1 G2) input pr :
  (size input <= size (hv_IC_rest vk))%N ->
  exists b, pghr_verify_weak e g2 vk input pr = Some b /\
    (b <-> pghr_equations g2 vk (input ++ nseq (size (hv_IC_rest vk) - size input) 0) pr).
Proof.
move=> h; rewrite /pghr_verify_weak h; eexists; split; first by reflexivity.
rewrite /pghr_equations; set pin := input ++ _.
have -> : accumulate_chunk (hv_IC_first vk) (hv_IC_rest vk) input
  = hv_IC_first vk + \sum_(i < size (hv_IC_rest vk)) nth 0 pin i *: nth 0 (hv_IC_rest vk) i.
  rewrite /accumulate_chunk; congr (_ + _).
  rewrite (multiexpE (n := size (hv_IC_rest vk))); last by rewrite h orbT.
  apply: eq_bigr => i _; rewrite /pin nth_cat; case: (ltnP i (size input)) => hi; first by rewrite nth_take.
  by rewrite nth_default // nth_nseq; case: ifP; rewrite !scale0r.
rewrite [(hp_A pr).1 + _]addrC !subr_eq0.
by split=> [/and5P[/eqP ? /eqP ? /eqP ? /eqP ? /eqP ?] | [-> -> -> -> ->]]; rewrite ?eqxx.
Qed.

(** The strong verifier rejects inputs of another length, and on the key's length accepts exactly when the equations
    hold. *)
Theorem C50_strong_exact (g2 : G2) (vk : pghr_verification_key G1 G2) input pr :
  exists b, pghr_verify_strong e g2 vk input pr = Some b /\
    (b <-> size input = size (hv_IC_rest vk) /\ pghr_equations g2 vk input pr).
Proof.
rewrite /pghr_verify_strong; case: eqP => [h|h] /=; last by exists false; split=> //; split=> // -[/esym].
have [|b [-> hb]] := @C50_weak_exact g2 vk input pr; first by rewrite h.
exists b; split=> //; rewrite hb h subnn cats0; by split=> [|[]].
Qed.
(** All entries of a knowledge-commitment vector. *)
Definition kc_entries (T1 T2 : lmodType F) (v : kc_vector T1 T2) : seq (T1 * T2) :=
  [seq kc_get v i | i <- iota 0 (kv_domain_size v)].
(** Every element of G1 a prover sees (the first element of the H query is the generator). *)
Definition pghr_elements1 (pk : pghr_proving_key G1 G2) (vk : pghr_verification_key G1 G2) : seq G1 :=
  hk_K_query pk ++ hk_H_query pk ++ [seq v.1 | v <- kc_entries (hk_A_query pk)] ++ [seq v.2 | v <- kc_entries (hk_A_query pk)]
  ++ [seq v.2 | v <- kc_entries (hk_B_query pk)] ++ [seq v.1 | v <- kc_entries (hk_C_query pk)]
  ++ [seq v.2 | v <- kc_entries (hk_C_query pk)] ++ [:: hv_alphaB_g1 vk; hv_gamma_beta_g1 vk]
  ++ (hv_IC_first vk :: hv_IC_rest vk).
(** Every element of G2 a prover sees. *)
Definition pghr_elements2 (pk : pghr_proving_key G1 G2) (vk : pghr_verification_key G1 G2) (g2 : G2) : seq G2 :=
  [seq v.1 | v <- kc_entries (hk_B_query pk)]
  ++ [:: hv_alphaA_g2 vk; hv_alphaC_g2 vk; hv_gamma_g2 vk; hv_gamma_beta_g2 vk; hv_rC_Z_g2 vk; g2].

(** Knowledge soundness against linear strategies: a prover that answers with fixed linear combinations of the key
    elements and is accepted for the claimed input at more than 2 * |dom| evaluation points, the other seven trapdoor
    elements ranging over three or more non-zero values, knows a satisfying assignment: its coefficients of K on the K
    query. *)
Theorem C50_extracts (asserts : bool) (cs : r1cs F) (dom : seq F) (g1 : G1) (g2 : G2) (chunks : nat)
    (primary cA cA' cB cB' cC cC' cH cK ts S : seq F) :
  bilinear e -> e g1 g2 != 0 ->
  r1cs_wf cs -> uniq dom -> (r_num_constraints cs + r_num_inputs cs + 1 <= size dom)%N ->
  uniq ts -> (2 * size dom < size ts)%N -> uniq S -> (2 < size S)%N -> 0 \notin S ->
  (forall t alphaA alphaB alphaC rA rB beta gamma, t \in ts ->
     all (fun x => x \in S) [:: alphaA; alphaB; alphaC; rA; rB; beta; gamma] -> exists pk vk,
     pghr_generator asserts dom cs t alphaA alphaB alphaC rA rB beta gamma g1 g2 chunks = Some (pk, vk) /\
     let E1 := pghr_elements1 pk vk in let E2 := pghr_elements2 pk vk g2 in
     pghr_verify_strong e g2 vk primary
       (PghrProof (lin cA E1, lin cA' E1) (lin cB E2, lin cB' E1) (lin cC E1, lin cC' E1) (lin cH E1) (lin cK E1)) = Some true) ->
  r_is_satisfied cs primary
    (mkseq (fun i => nth 0 cK ((r_num_inputs cs).+1 + i)) (r_num_variables cs - r_num_inputs cs)) = Some true.
Proof.
move=> be u0 wf udom ldom uts lts uS lS S0 h.
set n := r_num_variables cs; set ni := r_num_inputs cs.
have lni : (ni <= n)%N := leq_addr _ _.
have [h1 h2 h3 h4] := scs_basic wf.
have lts' : (size dom < size ts)%N by rewrite (leq_ltn_trans _ lts) // leq_pmull.
have sp : size primary = ni.
  case: (ts) lts h => // t0 ts' _ h; case: (S) lS h => // s0 S' _ h.
  have [||pk [vk [hg]]] := h t0 s0 s0 s0 s0 s0 s0 s0; [exact: mem_head|by rewrite /= mem_head|].
  have [q [Eq _]] := qap_shape wf ldom t0; have [_ sI _] := pghr_vk wf ldom Eq hg.
  by rewrite /pghr_verify_strong sI; case: eqP.
pose aux := mkseq (fun i => nth 0 cK (ni.+1 + i)) (n - ni).
have main t : t \in ts -> exists q, [/\ qap_instance_map_with_evaluation dom (swap_AB_if_beneficial cs) t = Some q,
   p_kA (plin cK (pvecs cs dom t q)) = p_aA (plin cA' (pvecs cs dom t q)) + part (qe_At q) primary 0 ni.+1
   & p_kA (plin cK (pvecs cs dom t q)) * p_kB (plin cK (pvecs cs dom t q)) - p_kC (plin cK (pvecs cs dom t q))
     = p_h (plin cH (pvecs cs dom t q)) * zeval dom t].
  move=> ht; have [q [Eq _]] := qap_shape wf ldom t; exists q.
  set V := pvecs cs dom t q.
  pose fB aA aC rA rB be ga : F := lin cB (pexps2 cs dom t aA aC rA rB be ga q : seq (GRing.regular_lmodType F)).
  have [||||k1 k2] := @pghr_algebra F (plin cA V) (plin cA' V) (plin cB' V) (plin cC V) (plin cC' V) (plin cH V) (plin cK V)
    fB (part (qe_At q) primary 0 ni.+1) (zeval dom t) S => //.
  move=> aA aB aC rA rB b ga i1 i2 i3 i4 i5 i6 i7.
  have [|pk [vk [hg]]] := h t aA aB aC rA rB b ga ht; first by rewrite /= i1 i2 i3 i4 i5 i6 i7.
  have [e1 e2] := pghr_els wf ldom Eq hg.
  have [evk sI hacc] := pghr_vk wf ldom Eq hg.
  rewrite /pghr_elements1 /pghr_elements2 /kc_entries e1 e2 !lin_batch !lin_pev -/V -/(fB aA aC rA rB b ga).
  rewrite /pghr_verify_strong sI sp eqxx /pghr_verify_weak sI sp leqnn (hacc primary [::] sp) cats0 evk.
  cbn [hp_A hp_B hp_C hp_H hp_K hv_alphaA_g2 hv_alphaB_g1 hv_alphaC_g2 hv_gamma_g2 hv_gamma_beta_g1 hv_gamma_beta_g2 hv_rC_Z_g2 fst snd].
  rewrite -!scalerDl !(e_scalel be) !(e_scaler be) !scalerA -!scalerDl -!scalerBl !scaler_eq0 (negPf u0) !orbF.
  rewrite !subr_eq0 => -[/and5P[/eqP v1 /eqP v2 /eqP v3 /eqP v4 /eqP v5]].
  split.
  - by rewrite -v1 mulrC.
  - by rewrite -v2.
  - by rewrite -v3 mulrC.
  - by rewrite v4.
  - by rewrite [LHS]mulrC v5 -/ni [RHS]mulrDl; congr (_ + _); apply: mulrC.
have kin j : (j <= ni)%N -> nth 0 cK j = nth 0 (1 :: primary) j.
  have ld := scs_ldom wf ldom; have [sP hP] := @aA_poly_props _ cs dom wf udom ldom cA'.
  have := @input_forced _ _ dom h4 udom ld (nth 0 cK) (nth 0 cK n.+1) (aA_poly cs dom cA') ts primary uts lts' sP.
  rewrite h1 h2 h3; apply=> // t ht; have [q [Eq ek _]] := main t ht; exists q => //.
  by have [<- _ _] := pghr_coefK cs dom t q cK; rewrite ek (pghr_coefA wf ldom).
pose x := mkseq (fun i => nth 0 cK i.+1) n.
have ex : x = primary ++ aux.
  apply: (@eq_from_nth _ 0); first by rewrite size_cat !size_mkseq sp subnKC.
  rewrite size_mkseq => i hi; rewrite nth_mkseq // nth_cat sp; case: ltnP => hin; first by rewrite kin.
  by rewrite nth_mkseq ?ltn_sub2r // ?(leq_ltn_trans hin) // addSn subnKC.
have sx : size x = n by rewrite size_mkseq.
have [|_ _ _ _ <-] := @scs_facts _ cs wf primary aux; first by rewrite size_mkseq sp subnKC.
have ld := scs_ldom wf ldom.
pose H := mkseq (fun i => nth 0 cH (n.+4 + i)) (size dom).+1.
have := @C05_sound _ _ dom h4 udom ld (QapWitness n (size dom) ni (nth 0 cK n.+1) (nth 0 cK n.+2) (nth 0 cK n.+3) x H) ts uts lts.
rewrite h1 -/ni [qw_ABCs _]/= ex take_size_cat // drop_size_cat // -ex; apply=> t ht.
have [q [Eq _ ek]] := main t ht; exists q => //.
have [q1 [E1 [[sA sB sC] [qi qv qH qZ qd]]]] := qap_shape wf ldom t.
move: E1; rewrite Eq => -[E1]; rewrite -E1 {q1 E1} in sA sB sC qi qv qH qZ qd.
have [q1 [[E1 qD qt] _]] := qap_eval_spec h4 ld t.
move: E1; rewrite Eq => -[E1]; rewrite -E1 {q1 E1} in qD qt.
apply: (sat_conv_d (t := t)) => //; first by rewrite size_mkseq.
have [k1 k2 k3] := pghr_coefK cs dom t q cK.
have hp u : part u x 0 n.+1 = \sum_(i < n.+1) nth 0 cK i * nth 0 u i.
  rewrite /part big_mkord; apply: eq_bigr => -[[|i] hi] _ /=; rewrite mulrC.
    by rewrite (kin 0%N).
  by rewrite nth_mkseq.
by rewrite !hp -k1 -k2 -k3 ek pghr_coefH.
Qed.
End C50.

(** Non-vacuity: the system of C05 over F_17, groups = the field itself, pairing = multiplication. *)
Definition C50_run (d : C05_F) (primary claimed aux : seq C05_F) : option bool :=
  obnd (@pghr_generator _ C08_V C08_V true C05_dom C05_sys 6%:R 6%:R 7%:R 8%:R 9%:R 2%:R 3%:R 10%:R (1 : C05_F) (3%:R : C05_F) 2)
  (fun k => obnd (pghr_prover C05_dom 3%:R k.1 primary aux d 11%:R 12%:R) (fun pr =>
    pghr_verify_strong C08_e (3%:R : C05_F) k.2 claimed pr)).
Example C50_witness :
  C50_run 4%:R [:: 2%:R] [:: 2%:R] [:: 3%:R; 6%:R] = Some true /\ C50_run 0 [:: 2%:R] [:: 2%:R] [:: 3%:R; 6%:R] = Some true
  /\ C50_run 4%:R [:: 2%:R] [:: 3%:R] [:: 3%:R; 6%:R] = Some false
  /\ C50_run 4%:R [:: 2%:R] [:: 2%:R; 0] [:: 3%:R; 6%:R] = Some false
  /\ C50_run 4%:R [:: 2%:R] [:: 2%:R] [:: 3%:R; 5%:R] = Some false.
Proof. by vm_decide. Qed.

(** The honest strategy (no blinding) as coefficients: accepted for nine evaluation points and three values of each of the
    other seven trapdoor elements; with another assignment it is not. *)
Definition C50_lin (c els : seq C05_F) : C05_F := foldr (fun (p : C05_F * C05_F) s => p.1 * p.2 + s) 0 (zip c els).
Definition C50_strategy (x H : seq C05_F) (t aA aB aC rA rB be ga : C05_F) : option bool :=
  obnd (@pghr_generator _ C08_V C08_V false C05_dom C05_sys t aA aB aC rA rB be ga (1 : C05_F) (3%:R : C05_F) 1) (fun k =>
    let E1 : seq C05_F := pghr_elements1 k.1 k.2 in
    let E2 : seq C05_F := pghr_elements2 k.1 k.2 (3%:R : C05_F) in
    let at1 i := C50_lin (nseq i 0 ++ 1 :: x) E1 : C08_V in
    pghr_verify_strong C08_e (3%:R : C05_F) k.2 (take 1 x)
      (PghrProof (at1 12%N, at1 17%N) (C50_lin (1 :: x) E2 : C08_V, at1 22%N) (at1 27%N, at1 32%N)
         (C50_lin (nseq 7 0 ++ H) E1 : C08_V) (at1 0%N))).
Definition C50_all (f : C05_F -> bool) : bool := all (fun x => f x%:R) [:: 1; 2; 3]%N.
Example C50_strategy_witness :
  let w := qap_witness_map C05_dom 3%:R C05_sys [:: 2%:R] [:: 3%:R; 6%:R] 0 0 0 in
  let x := oapp (@qw_ABCs _) [::] w in let H := oapp (@qw_H _) [::] w in
  let ts := [:: 0; 2; 3; 5; 6; 7; 8; 9; 10]%N in
  all (fun t => C50_all (fun aA => C50_all (fun aB => C50_all (fun aC => C50_all (fun rA => C50_all (fun rB =>
    C50_all (fun be => C50_all (fun ga => C50_strategy x H t%:R aA aB aC rA rB be ga == Some true)))))))) ts
  /\ ~~ all (fun t => C50_strategy [:: 2%:R; 3%:R; 7%:R] H t%:R 1 1 1 1 1 1 1 == Some true) ts.
Proof. by vm_compute. Qed.

Print Assumptions C50_complete.
Print Assumptions C50_generates.
Print Assumptions C50_witness_independent.
Print Assumptions C50_weak_exact.
Print Assumptions C50_strong_exact.
Print Assumptions C50_extracts.
