(** C52: the simulation-extractable R1CS ppzkSNARK (Groth-Maller): honest proofs are accepted, do not depend on the
    witness; the verifiers decide exactly the published equations; a linear strategy that is accepted for many trapdoors
    contains a satisfying witness. *)
From mathcomp Require Import all_ssreflect all_algebra.
From Verif.Model Require Import Base LinearCombination ConstraintSystems Domain ArithmeticPrograms KnowledgeCommitment
  Groth16 OrderedMap SePpzksnark.
From Verif.Spec Require Import LinearSpec GroupSpec AlgebraicSpec.
From Verif.Proofs Require Import NatTac FieldTac LinearProofs DomainProofs ProgramProofs SapProofs KcProofs Groth16Proofs
  PermProofs PghrProofs UscsSnarkProofs SeSnarkProofs.
From Verif.Props Require Import C02_R1csSemantics C06_R1csToSap C08_Groth16Complete.
Set Implicit Arguments.
Unset Strict Implicit.
Unset Printing Implicit Defensive.
Import GRing.Theory.
Local Open Scope ring_scope.

Section C52.
Variables (F : fieldType) (G1 G2 GT : lmodType F) (e : G1 -> G2 -> GT).
Add Field Ff_c52 : (@ffield_theory F).

(** Key generation returns for every drawn point outside of the domain (the code draws again otherwise). *)
Theorem C52_generates (cs : r1cs F) (dom : seq F) (t alpha beta gamma : F) (G : G1) (H : G2) :
  r1cs_wf cs -> (2 * r_num_constraints cs + 2 * r_num_inputs cs + 1 <= size dom)%N ->
  isSome (se_generator dom cs t alpha beta gamma G H) = (t \notin dom).
Proof.
move=> wf ldom; have [At [Ct [E [sA sC] _ _ _]]] := sap_inst wf ldom t.
by rewrite (se_genE alpha beta gamma G H E sA) zeval_eq0; case: ifP.
Qed.

(** Completeness: for every satisfying assignment and all randomness the prover succeeds and the strong verifier
    accepts its proof. *)
Theorem C52_complete (cs : r1cs F) (dom : seq F) (gen t alpha beta gamma : F) (G : G1) (H : G2) pk vk :
  bilinear e -> r1cs_wf cs -> uniq dom -> (2 * r_num_constraints cs + 2 * r_num_inputs cs + 1 <= size dom)%N ->
  gen != 0 -> (forall x, x \in dom -> gen * x \notin dom) ->
  se_generator dom cs t alpha beta gamma G H = Some (pk, vk) ->
  forall primary auxiliary d1 d2 r,
    size primary = r_num_inputs cs -> (size primary + size auxiliary)%N = r_num_variables cs ->
    r_is_satisfied cs primary auxiliary = Some true ->
    exists2 pr, se_prover dom gen pk primary auxiliary d1 d2 r = Some pr &
                se_verify_strong e vk primary pr = Some true.
Proof.
move=> be wf udom ldom gen0 genz hg primary auxiliary d1 d2 r sp sz sat.
have [At [Ct [_ hq]]] := @se_closed _ G1 G2 cs dom wf udom ldom t alpha beta gamma G H gen gen0 genz.
have [_ evk sq hpsi hpr] := hq _ _ hg.
have := hpr _ _ d1 d2 r sp sz sat; cbv zeta; set a := gamma * _ => ->.
eexists; first by reflexivity.
rewrite /se_verify_strong sq sp eqxx /se_verify_weak (vget_nth 0) ?sq // {1}/obnd; cbv zeta; rewrite (hpsi _ sp) evk /=.
move: (part _ _ _ _) (part _ _ _ _) => c0 a0.
rewrite -!scalerDl !(e_scalel be) !(e_scaler be) !scalerA -!scaleNr -!scalerDl.
have Z x : x = 0 -> x *: e G H == 0 by move=> ->; rewrite scale0r.
by rewrite !Z //; fring F.
Qed.

(** For two satisfying witnesses of the same primary input there is a bijection of the randomness that turns each
    proof made with the first witness into the identical proof made with the second. *)
Theorem C52_witness_independent (cs : r1cs F) (dom : seq F) (gen t alpha beta gamma : F) (G : G1) (H : G2) pk vk :
  r1cs_wf cs -> uniq dom -> (2 * r_num_constraints cs + 2 * r_num_inputs cs + 1 <= size dom)%N ->
  gen != 0 -> (forall x, x \in dom -> gen * x \notin dom) ->
  se_generator dom cs t alpha beta gamma G H = Some (pk, vk) ->
  forall primary aux1 aux2,
    size primary = r_num_inputs cs ->
    (size primary + size aux1)%N = r_num_variables cs -> (size primary + size aux2)%N = r_num_variables cs ->
    r_is_satisfied cs primary aux1 = Some true -> r_is_satisfied cs primary aux2 = Some true ->
    exists2 f : F * F * F -> F * F * F, bijective f &
      forall d1 d2 r, exists2 pr, se_prover dom gen pk primary aux1 d1 d2 r = Some pr &
        let: (d1', d2', r') := f (d1, d2, r) in se_prover dom gen pk primary aux2 d1' d2' r' = Some pr.
Proof.
move=> wf udom ldom gen0 genz hg primary aux1 aux2 sp sz1 sz2 sat1 sat2.
have [At [Ct [_ hq]]] := @se_closed _ G1 G2 cs dom wf udom ldom t alpha beta gamma G H gen gen0 genz.
have [z0 _ _ _ hpr] := hq _ _ hg.
set z := zeval dom t in z0 hpr.
pose a x d1 d2 := part At (se_full cs dom gen primary x d1 d2) 0 (sap_num_variables cs).+1.
pose sh x y (w : F * F * F) := let: (d1, d2, r) := w in (d1, d2, r + (a x d1 d2 - a y d1 d2) / z).
exists (sh aux1 aux2).
  by exists (sh aux2 aux1) => -[[d1 d2] r]; rewrite /sh; congr (_, _, _);
    move: (a aux1 _ _) (a aux2 _ _) => u v; clear -z0; ffield F.
move=> d1 d2 r; rewrite /sh.
have := hpr _ _ d1 d2 r sp sz1 sat1; cbv zeta; rewrite -/(a aux1 d1 d2) => ->; eexists; first by reflexivity.
have := hpr _ _ d1 d2 (r + (a aux1 d1 d2 - a aux2 d1 d2) / z) sp sz2 sat2; cbv zeta; rewrite -/(a aux2 d1 d2) => ->.
have -> : a aux2 d1 d2 + (d1 + (r + (a aux1 d1 d2 - a aux2 d1 d2) / z)) * z = a aux1 d1 d2 + (d1 + r) * z.
  by move: (a aux1 _ _) (a aux2 _ _) => u v; clear -z0; ffield F.
by [].
Qed.

(** The published verification equations for an input as long as the key's. *)
Definition se_equations (vk : se_verification_key G1 G2) (input : seq F) (pr : se_proof G1 G2) : Prop :=
  let psi := nth 0 (sv_query vk) 0 + \sum_(i < (size (sv_query vk)).-1) nth 0 input i *: nth 0 (sv_query vk) i.+1 in
  e (sp_A pr + sv_G_alpha vk) (sp_B pr + sv_H_beta vk)
    = e (sv_G_alpha vk) (sv_H_beta vk) + e psi (sv_H_gamma vk) + e (sp_C pr) (sv_H vk) /\
  e (sp_A pr) (sv_H_gamma vk) = e (sv_G_gamma vk) (sp_B pr).

(** The weak verifier decides the equations for the input padded with zeros or cut to the length of the key. *)
Theorem C52_weak_exact (vk : se_verification_key G1 G2) input pr :
  (0 < size (sv_query vk))%N ->
  let k := (size (sv_query vk)).-1 in
  exists b, se_verify_weak e vk input pr = Some b /\ (b <-> se_equations vk (take k (input ++ nseq k 0)) pr).
Proof.
move=> hq k; rewrite /se_verify_weak (vget_nth 0) // {1}/obnd; cbv zeta; eexists; split; first by reflexivity.
rewrite /se_equations -/k; set pin := take k _.
have -> : multiexp (drop 1 (sv_query vk)) input = \sum_(i < k) nth 0 pin i *: nth 0 (sv_query vk) i.+1.
  have -> : multiexp (drop 1 (sv_query vk)) input = multiexp (drop 1 (sv_query vk)) pin.
    rewrite !(multiexpE (n := k)) ?size_drop ?subn1 ?leqnn //.
    apply: eq_bigr => i _; congr (_ *: _); rewrite /pin nth_take // nth_cat; case: (ltnP i (size input)) => // hi.
    by rewrite nth_default // nth_nseq; case: ifP.
  rewrite (multiexpE (n := k)) ?size_drop ?subn1 ?leqnn //.
  by apply: eq_bigr => i _; rewrite nth_drop add1n.
move: (nth 0 _ _ + _) => psi.
have R (x y w z : GT) : (- x + y + w + z == 0) = (x == y + w + z) by rewrite -!addrA addrC subr_eq0 eq_sym.
rewrite R subr_eq0.
by split=> [/andP[/eqP ? /eqP ?] | [-> ->]]; rewrite ?eqxx.
Qed.

(** The strong verifier rejects inputs of another length, and on the key's length accepts exactly when the equations
    hold. *)
Theorem C52_strong_exact (vk : se_verification_key G1 G2) input pr :
  exists b, se_verify_strong e vk input pr = Some b /\
    (b <-> (size input).+1 = size (sv_query vk) /\ se_equations vk input pr).
Proof.
rewrite /se_verify_strong; case: eqP => [h|h] /=; last by exists false; split=> //; split=> // -[/esym].
have [|b [-> hb]] := @C52_weak_exact vk input pr; first by rewrite h.
by exists b; split=> //; rewrite hb h /= take_size_cat //; split=> [|[]].
Qed.

(** Finding: the weak verifier ignores what follows the inputs of the key: a proof is also accepted for every longer
    primary input that extends the proved one (the other schemes assert the length). *)
Theorem C52_excess_input_refuted (vk : se_verification_key G1 G2) input extra pr :
  size (sv_query vk) = (size input).+1 -> se_verify_weak e vk (input ++ extra) pr = se_verify_weak e vk input pr.
Proof.
move=> h; rewrite /se_verify_weak.
have -> : multiexp (drop 1 (sv_query vk)) (input ++ extra) = multiexp (drop 1 (sv_query vk)) input.
  rewrite !(multiexpE (n := size input)) ?size_drop ?h ?subn1 ?leqnn //.
  by apply: eq_bigr => i _; rewrite nth_cat ltn_ord.
by [].
Qed.

(** All elements of the first group a prover is given. *)
Definition se_elements (pk : se_proving_key G1 G2) (vk : se_verification_key G1 G2) : seq G1 :=
  sk_A_query pk ++ sk_C_query_1 pk ++ sk_C_query_2 pk ++ [:: sk_G_gamma_Z pk; sk_G_ab_gamma_Z pk; sk_G_gamma2_Z2 pk]
  ++ sk_G_gamma2_Z_t pk ++ [:: sv_G_alpha vk; sv_G_gamma vk] ++ sv_query vk.

(** Knowledge against linear strategies: fixed coefficients [cA], [cC] whose combinations of the key elements are
    accepted (with some B) for more than 2 * degree evaluation points, more than two values of [beta] and more than
    four non-zero values of [gamma] contain a satisfying auxiliary input. *)
Theorem C52_extracts (cs : r1cs F) (dom : seq F) (G : G1) (H : G2) (alpha : F) (primary cA cC ts betas gammas : seq F) :
  bilinear e -> e G H != 0 -> (2%:R : F) != 0 ->
  r1cs_wf cs -> uniq dom -> (2 * r_num_constraints cs + 2 * r_num_inputs cs + 1 <= size dom)%N ->
  uniq ts -> (2 * size dom < size ts)%N -> uniq betas -> (2 < size betas)%N ->
  uniq gammas -> (4 < size gammas)%N -> 0 \notin gammas ->
  (forall t beta gamma, t \in ts -> beta \in betas -> gamma \in gammas -> exists B pk vk,
     se_generator dom cs t alpha beta gamma G H = Some (pk, vk) /\
     se_verify_strong e vk primary (SeProof (lin cA (se_elements pk vk)) B (lin cC (se_elements pk vk))) = Some true) ->
  let nv := (r_num_variables cs + r_num_constraints cs + r_num_inputs cs)%N in
  r_is_satisfied cs primary (mkseq (fun i => nth 0 cC (nv.+1 + i)) (r_num_variables cs - r_num_inputs cs)) = Some true.
Proof.
move=> be u0 two wf udom ldom uts lts ubs lbs ugs lgs g0 h nv.
set ni := r_num_inputs cs; set n := r_num_variables cs.
have lni : (ni <= nv)%N := ni_N cs.
have lnn : (ni <= n)%N by rewrite /n /r_num_variables leq_addr.
have lnv : (n <= nv)%N by rewrite /nv -addnA leq_addr.
have [sp hall] : size primary = ni /\ forall t, t \in ts -> exists At Ct,
    [/\ sap_instance_map_with_evaluation dom cs t
        = Some (SapEval nv (size dom) ni dom t At Ct (powers t (size dom).+1) (zeval dom t))
      & (part At primary 0 ni.+1 + (part At (primary ++ se_priv cs cC) ni.+1 nv.+1 + se_d cs cC * zeval dom t)) ^+ 2
        = part Ct primary 0 ni.+1 + (part Ct (primary ++ se_priv cs cC) ni.+1 nv.+1 + (se_h cs dom cC).[t] * zeval dom t)].
  have HH t : t \in ts -> size primary = ni /\ exists At Ct,
    [/\ sap_instance_map_with_evaluation dom cs t
        = Some (SapEval nv (size dom) ni dom t At Ct (powers t (size dom).+1) (zeval dom t))
      & (part At primary 0 ni.+1 + (part At (primary ++ se_priv cs cC) ni.+1 nv.+1 + se_d cs cC * zeval dom t)) ^+ 2
        = part Ct primary 0 ni.+1 + (part Ct (primary ++ se_priv cs cC) ni.+1 nv.+1 + (se_h cs dom cC).[t] * zeval dom t)].
    move=> ht; have [At [Ct [E [sA sC] eA _ _]]] := sap_inst wf ldom t.
    have sp : size primary = ni.
      case: (betas) lbs h => // b0 bs' _ h; case: (gammas) lgs h => // c0 gs' _ h.
      have [B [pk [vk [hg]]]] := h t b0 c0 ht (mem_head _ _) (mem_head _ _).
      have [_ _ sq _] := se_vkE E sA hg.
      by rewrite /se_verify_strong sq; case: eqP => // -[].
    split=> //; exists At, Ct; split=> //.
    rewrite -(@se_coef4 _ cs dom t At Ct cC primary sA sp) -(@se_coef5 _ cs dom t At Ct cC primary sA eA sp).
    set L := elist cs dom t At Ct.
    pose la (i : vec F -> F) : F := lin cA ([seq i v | v <- L] : seq (GRing.regular_lmodType F)).
    pose lc (i : vec F -> F) : F := lin cC ([seq i v | v <- L] : seq (GRing.regular_lmodType F)).
    apply: (@se_algebra F (la (fun v => v.1.1.1.1)) (la (fun v => v.1.1.1.2)) (la (fun v => v.1.1.2))
      (la (fun v => v.1.2)) (la (fun v => v.2))
      (lc (fun v => v.1.1.1.1)) (lc (fun v => v.1.1.1.2)) (lc (fun v => v.1.1.2)) _ _ _ _ alpha _ _ ubs lbs ugs lgs).
    move=> b g hb hg s' a; have [B [pk [vk [hk]]]] := h t b g ht hb hg.
    rewrite /se_elements (se_els E sA hk) !lin_batch !lin_ev -/L -/s' -/a.
    rewrite /lc; set c : F := (_ * alpha + _ + _ + _ + _ * g ^+ 2).
    have [_ evk sq hpsi] := se_vkE E sA hk.
    rewrite /se_verify_strong sq sp eqxx /se_verify_weak (vget_nth 0) ?sq // {1}/obnd; cbv zeta; rewrite (hpsi _ sp) evk /=.
    have g0' : g != 0 by apply: contraNneq g0 => <-.
    move: (part _ _ _ _) (part _ _ _ _) => p1 p2.
    rewrite -!scalerDl !(e_scalel be) !(e_addr be) !(e_scaler be) !scalerA => -[/andP[h1]].
    rewrite subr_eq0 [a * g]mulrC -scalerA (inj_eq (scalerI g0')) => /eqP h2.
    move: h1; rewrite -h2 -!scaleNr scalerDr !scalerA -!scalerDl scaler_eq0 (negPf u0) orbF => /eqP h1.
    rewrite -/s' in h1 *.
    apply/eqP; rewrite -subr_eq0 -oppr_eq0 -h1; apply/eqP; rewrite /s'; fring F.
  case: (ts) lts HH => // t0 ts' _ HH.
  by split=> [|t ht]; [have [] := HH t0 (mem_head _ _) | have [] := HH t ht].
pose x := primary ++ se_priv cs cC.
have sx : size x = nv by rewrite size_cat sp size_mkseq subnKC.
pose hs := mkseq (fun i => (se_h cs dom cC)`_i) (size dom).+1.
have eh : Poly hs = se_h cs dom cC.
  apply/polyP => i; rewrite coef_Poly; case: (ltnP i (size dom).+1) => hi; first by rewrite nth_mkseq.
  by rewrite !nth_default ?size_mkseq // (leq_trans (size_se_h _ _ _)).
pose w := SapWitness nv (size dom) ni (se_d cs cC) 0 x hs.
have := @C06_sound _ cs dom wf udom ldom w ts two uts lts; cbv zeta.
have tp : take ni x = primary by rewrite take_size_cat.
have -> : take (r_num_inputs cs) (take (r_num_variables cs) (sw_ACs w)) = primary by rewrite take_take.
have -> : drop (r_num_inputs cs) (take (r_num_variables cs) (sw_ACs w))
  = mkseq (fun i => nth 0 cC (nv.+1 + i)) (n - ni).
  apply: (@eq_from_nth _ 0); rewrite size_drop size_takel ?sx // ?size_mkseq // => i hi.
  rewrite nth_mkseq // nth_drop nth_take -?ltn_subRL // /w /= /x nth_cat sp ltnNge leq_addr /= addKn.
  by rewrite nth_mkseq ?nth_drop // (leq_trans hi) // leq_sub2r.
apply=> t ht; have [At [Ct [E hA]]] := hall t ht.
have [q [Eq hs']] := @sap_eval_spec _ cs wf dom ldom t.
have shs : size hs = (size dom).+1 by rewrite size_mkseq.
exists q => //; apply/hs'; split; first by split.
rewrite [sw_ACs w]/= [sw_H w]/= [sw_d1 w]/= [sw_d2 w]/= eh mul0r addr0.
have [At' [Ct' [E' _ _ hA' hC']]] := sap_inst wf ldom t.
move: E'; rewrite E => -[eA eC]; rewrite -eA in hA'; rewrite -eC in hC'.
rewrite -hA' // -hC' // !part_splitS !(part_take _ tp sp).
move: hA; rewrite -/x -/nv -/ni; move: (part _ _ _ _) (part _ _ _ _) (part _ _ _ _) (part _ _ _ _) => p1 p2 p3 p4 hA.
apply/eqP; rewrite subr_eq -expr2 -[p4 + p3 + _]addrA hA; apply/eqP; fring F.
Qed.
End C52.

(** Non-vacuity: the system of C06 over F_17, groups = the field itself, pairing = multiplication. *)
Definition C52_keys (t beta gamma : C06_F) :=
  @se_generator _ C08_V C08_V C06_d C06_sys t 5%:R beta gamma (1 : C06_F) (3%:R : C06_F).
Definition C52_run (strong : bool) (d1 d2 r : C06_F) (primary claimed aux : seq C06_F) : option bool :=
  obnd (C52_keys 0 7%:R 11%:R) (fun k => obnd (se_prover C06_d 3%:R k.1 primary aux d1 d2 r) (fun pr =>
    (if strong then se_verify_strong C08_e else se_verify_weak C08_e) k.2 claimed pr)).
Example C52_witness :
  C52_run true 4%:R 2%:R 9%:R [:: 2%:R] [:: 2%:R] [:: 3%:R; 6%:R] = Some true
  /\ C52_run true 0 0 0 [:: 2%:R] [:: 2%:R] [:: 3%:R; 6%:R] = Some true
  /\ C52_run true 4%:R 2%:R 9%:R [:: 2%:R] [:: 3%:R] [:: 3%:R; 6%:R] = Some false
  /\ C52_run true 4%:R 2%:R 9%:R [:: 2%:R] [:: 2%:R] [:: 3%:R; 5%:R] = Some false
  /\ C52_run true 4%:R 2%:R 9%:R [:: 2%:R] [:: 2%:R; 1] [:: 3%:R; 6%:R] = Some false
  /\ C52_run false 4%:R 2%:R 9%:R [:: 2%:R] [:: 2%:R; 1] [:: 3%:R; 6%:R] = Some true
  /\ isSome (C52_keys 8%:R 7%:R 11%:R) = false.
Proof. by vm_compute. Qed.

(** The honest strategy (r = 0) as coefficients, for the system x1 * x1 = x2 without public input over the subgroup of
    order 4: accepted for nine evaluation points, three values of beta and five of gamma. *)
Definition C52_sys : r1cs C06_F := R1cs 0 2 [:: R1csConstraint (lc_var _ 1) (lc_var _ 1) (lc_var _ 2)].
Definition C52_dom : seq C06_F := [:: 1; 4%:R; 16%:R; 13%:R].
Definition C52_lin (c els : seq C06_F) : C06_F := foldr (fun (p : C06_F * C06_F) s => p.1 * p.2 + s) 0 (zip c els).
Definition C52_strategy (x H : seq C06_F) (d1 d2 t beta gamma : C06_F) : option bool :=
  obnd (@se_generator _ C08_V C08_V C52_dom C52_sys t 5%:R beta gamma (1 : C06_F) (3%:R : C06_F)) (fun k =>
    let els : seq C06_F := se_elements k.1 k.2 in
    let A := C52_lin (1 :: x ++ nseq 7 0 ++ [:: d1]) els in
    let C := C52_lin (nseq 4 0 ++ x ++ nseq 4 0 ++ [:: 0; d1; 0] ++ padd [:: d2] H) els in
    se_verify_strong C08_e k.2 [::] (SeProof (A : C08_V) (3%:R * A : C08_V) (C : C08_V))).
Example C52_strategy_witness :
  let w := sap_witness_map C52_dom 3%:R C52_sys [::] [:: 3%:R; 9%:R] 5%:R 6%:R in
  let x := oapp (@sw_ACs _) [::] w in let H := oapp (@sw_H _) [::] w in
  let ts := [:: 0; 2; 3; 5; 6; 7; 8; 9; 10]%N in
  take 2 x = [:: 3%:R; 9%:R]
  /\ all (fun t => all (fun b => all (fun g => C52_strategy x H 5%:R 6%:R t%:R b%:R g%:R == Some true)
       [:: 1; 2; 3; 4; 5]%N) [:: 1; 2; 3]%N) ts
  /\ ~~ all (fun t => C52_strategy (4%:R :: behead x) H 5%:R 6%:R t%:R 1 1 == Some true) ts.
Proof. by vm_compute. Qed.

Print Assumptions C52_generates.
Print Assumptions C52_complete.
Print Assumptions C52_witness_independent.
Print Assumptions C52_weak_exact.
Print Assumptions C52_strong_exact.
Print Assumptions C52_excess_input_refuted.
Print Assumptions C52_extracts.
