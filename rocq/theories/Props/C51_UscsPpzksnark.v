(** C51: the USCS ppzkSNARK: honest proofs are accepted, do not depend on the witness; the verifiers decide exactly the
    published equations; a linear strategy that is accepted for many trapdoors contains a satisfying witness. *)
From mathcomp Require Import all_ssreflect all_algebra.
From Verif.Model Require Import Base LinearCombination ConstraintSystems Domain ArithmeticPrograms KnowledgeCommitment
  Groth16 OrderedMap UscsPpzksnark.
From Verif.Spec Require Import LinearSpec GroupSpec AlgebraicSpec.
From Verif.Proofs Require Import FieldTac LinearProofs DomainProofs ProgramProofs SspProofs KcProofs Groth16Proofs PghrProofs
  UscsSnarkProofs.
From Verif.Props Require Import C02_R1csSemantics C07_UscsToSsp C08_Groth16Complete.
Set Implicit Arguments.
Unset Strict Implicit.
Unset Printing Implicit Defensive.
Import GRing.Theory.
Local Open Scope ring_scope.

Section C51.
Variables (F : fieldType) (G1 G2 GT : lmodType F) (e : G1 -> G2 -> GT).
Add Field Ff_c51 : (@ffield_theory F).

(** Completeness: whenever key generation returns, for every satisfying assignment and all randomness the prover
    succeeds and the strong verifier accepts its proof. *)
Theorem C51_complete (asserts : bool) (cs : uscs F) (dom : seq F) (gen t alpha tilde : F) (g1 : G1) (g2 : G2) pk vk :
  bilinear e -> uscs_wf cs -> uniq dom -> (0 < size dom)%N -> (size (u_constraints cs) <= size dom)%N ->
  gen != 0 -> (forall x, x \in dom -> gen * x \notin dom) ->
  uscs_generator asserts dom cs t alpha tilde g1 g2 = Some (pk, vk) ->
  forall primary auxiliary d,
    size primary = u_num_inputs cs -> (size primary + size auxiliary)%N = u_num_variables cs ->
    u_is_satisfied cs primary auxiliary = Some true ->
    exists2 pr, uscs_prover dom gen pk primary auxiliary d = Some pr &
                uscs_verify_strong e g1 g2 vk primary pr = Some true.
Proof.
move=> be wf udom m0 ldom gen0 genz hg primary auxiliary d sp sz sat.
have [Vt [_ _ _ hq]] := @uscs_closed _ G1 G2 cs dom wf udom m0 ldom asserts t alpha tilde g1 g2 gen gen0 genz.
have [evk sIC hacc hpr] := hq _ _ hg.
have [h [hh ->]] := hpr _ _ d sp sz sat; eexists; first by reflexivity.
rewrite /uscs_verify_strong sIC sp eqxx /uscs_verify_weak sIC sp leqnn (hacc _ auxiliary sp).
move: hh; rewrite (part_splitN cs Vt); rewrite evk /=.
set a0 := part Vt _ 0 (u_num_inputs cs).+1; set a := part Vt _ _ _; set z := zeval _ _ => hh.
rewrite -!scalerDl !(e_scalel be) !(e_scaler be) !scalerA -!scaleNr -!scalerDl.
move: (e g1 g2) => u.
have Z x : x = 0 -> x *: u == 0 by move=> ->; rewrite scale0r.
have Z1 x : x + 1 = 0 -> x *: u + u == 0 by rewrite -{2}[u]scale1r -scalerDl; apply: Z.
rewrite Z1; last first.
  have -> : - ((a + d * z + a0) * (a0 + a + d * z)) + h * z + 1
    = h * z - ((a0 + a + d * z) * (a0 + a + d * z) - 1) by fring F.
  by rewrite hh subrr.
by rewrite !Z //; fring F.
Qed.

(** Variable [i] (0: the constant) has a coefficient different from zero, in a constraint or in the padding with the
    constraint 1^2 = 1. *)
Definition used (cs : uscs F) (dom : seq F) (i : nat) : Prop :=
  (exists2 l, l \in u_constraints cs & coef_of l i != 0) \/ (i = 0%N /\ (size (u_constraints cs) < size dom)%N).

(** With assertions key generation returns for all but at most (inputs + 1) * (degree - 1) evaluation points, if every
    public input is used. *)
Theorem C51_generates (cs : uscs F) (dom ts : seq F) (g1 : G1) (g2 : G2) :
  uscs_wf cs -> uniq dom -> (0 < size dom)%N -> (size (u_constraints cs) <= size dom)%N ->
  (forall i, (i <= u_num_inputs cs)%N -> used cs dom i) -> uniq ts ->
  (forall t, t \in ts -> exists alpha tilde, uscs_generator true dom cs t alpha tilde g1 g2 = None) ->
  (size ts <= (u_num_inputs cs).+1 * (size dom).-1)%N.
Proof.
move=> wf udom m0 ldom hu uts h.
apply: (@roots_few _ (vpoly cs dom) _ _ _ m0 uts).
- move=> i hi; have hin : (i <= u_num_variables cs)%N by rewrite (leq_trans _ (uni_n cs)).
  apply: (vpoly_neq0 wf udom ldom hin).
  by case: (hu i hi) => [[l /(nthP [::]) [j hj <-] hc]|]; [left; exists j | right].
- by move=> i _; apply: size_vpoly.
move=> t /h [al [ti hg]].
have [Vt [E eV _]] := ssp_inst wf ldom t.
have sV : size Vt = (u_num_variables cs).+1 by rewrite eV size_map size_iota.
move: hg; rewrite (uscs_genE true al ti g1 g2 E sV) implyTb; case: ifP => // /negbT /allPn [c hc] /negPn /eqP c0 _.
have [i hi hi'] := nthP 0 hc.
have {}hi : (i < (u_num_inputs cs).+1)%N by apply: leq_trans hi _; rewrite size_take; case: ifP => // /negbT; rewrite -leqNgt.
exists i => //; rewrite -c0 -hi' nth_take // eV (nth_map 0%N) ?size_iota ?nth_iota //;
by rewrite (leq_trans hi) // ltnS uni_n.
Qed.

(** A public input without coefficient makes the assertion fail for every evaluation point. *)
Theorem C51_unused_input_refuted (cs : uscs F) (dom : seq F) (i : nat) (t alpha tilde : F) (g1 : G1) (g2 : G2) :
  uscs_wf cs -> uniq dom -> (size (u_constraints cs) <= size dom)%N ->
  (0 < i <= u_num_inputs cs)%N -> (forall l, l \in u_constraints cs -> coef_of l i = 0) ->
  uscs_generator true dom cs t alpha tilde g1 g2 = None.
Proof.
move=> wf udom ldom /andP[i0 hi] h.
have hin : (i <= u_num_variables cs)%N by rewrite (leq_trans hi (uni_n cs)).
have [Vt [E eV _]] := ssp_inst wf ldom t.
have sV : size Vt = (u_num_variables cs).+1 by rewrite eV size_map size_iota.
rewrite (uscs_genE true alpha tilde g1 g2 E sV) implyTb; case: allP => // hall.
have hn : nth 0 (take (u_num_inputs cs).+1 Vt) i = 0.
  rewrite nth_take ?ltnS // eV (nth_map 0%N) ?size_iota ?nth_iota ?ltnS //.
  rewrite (vpoly_eq0 wf udom hin) ?horner0 // -?lt0n // => j hj.
  by apply: h; apply: mem_nth.
have hs : (i < size (take (u_num_inputs cs).+1 Vt))%N by rewrite size_takel ?ltnS // sV ltnS uni_n.
by have := hall _ (mem_nth 0 hs); rewrite hn eqxx.
Qed.

(** For two satisfying witnesses of the same primary input there is a bijection of the randomness that turns each
    proof made with the first witness into the identical proof made with the second, provided the drawn evaluation
    point is not a domain point. *)
Theorem C51_witness_independent (asserts : bool) (cs : uscs F) (dom : seq F) (gen t alpha tilde : F) (g1 : G1) (g2 : G2) pk vk :
  uscs_wf cs -> uniq dom -> (0 < size dom)%N -> (size (u_constraints cs) <= size dom)%N ->
  gen != 0 -> (forall x, x \in dom -> gen * x \notin dom) -> t \notin dom ->
  uscs_generator asserts dom cs t alpha tilde g1 g2 = Some (pk, vk) ->
  forall primary aux1 aux2,
    size primary = u_num_inputs cs ->
    (size primary + size aux1)%N = u_num_variables cs -> (size primary + size aux2)%N = u_num_variables cs ->
    u_is_satisfied cs primary aux1 = Some true -> u_is_satisfied cs primary aux2 = Some true ->
    exists2 f : F -> F, bijective f &
      forall d, exists2 pr, uscs_prover dom gen pk primary aux1 d = Some pr &
                            uscs_prover dom gen pk primary aux2 (f d) = Some pr.
Proof.
move=> wf udom m0 ldom gen0 genz tdom hg primary aux1 aux2 sp sz1 sz2 sat1 sat2.
have [Vt [_ _ _ hq]] := @uscs_closed _ G1 G2 cs dom wf udom m0 ldom asserts t alpha tilde g1 g2 gen gen0 genz.
have [_ _ _ hpr] := hq _ _ hg.
have z0 : zeval dom t != 0 by rewrite zeval_eq0.
set z := zeval dom t in z0 hpr.
pose n := u_num_variables cs.
pose a x := part Vt (primary ++ x) 0 n.+1.
pose sh x y (d : F) := d + (a x - a y) / z.
exists (sh aux1 aux2).
  by exists (sh aux2 aux1) => d; rewrite /sh; move: (a aux1) (a aux2) => u v; clear -z0; ffield F.
move=> d; rewrite /sh.
have [h [hh ->]] := hpr _ _ d sp sz1 sat1; eexists; first by reflexivity.
have [h' [hh' ->]] := hpr _ _ (d + (a aux1 - a aux2) / z) sp sz2 sat2.
rewrite -/n -/(a aux1) -/(a aux2) in hh hh' *.
have sA : part Vt (primary ++ aux2) (u_num_inputs cs).+1 n.+1 + (d + (a aux1 - a aux2) / z) * z
        = part Vt (primary ++ aux1) (u_num_inputs cs).+1 n.+1 + d * z.
  rewrite /a /n !part_splitN.
  have -> : part Vt (primary ++ aux2) 0 (u_num_inputs cs).+1 = part Vt (primary ++ aux1) 0 (u_num_inputs cs).+1.
    by apply: part_eq => // -[|i] //=; rewrite ltnS => hi; rewrite !nth_cat sp hi.
  by move: (part _ _ _ _) (part _ _ _ _) (part _ _ _ _) => u v w; clear -z0; ffield F.
have E u v : v + (d + (u - v) / z) * z = u + d * z by clear -z0; ffield F.
rewrite !E in hh'; rewrite sA !E.
by have -> : h' = h by apply: (mulIf z0); rewrite -hh -hh'.
Qed.

(** The published verification equations for an input as long as the key's. *)
Definition uscs_equations (g1 : G1) (g2 : G2) (vk : uscs_verification_key G1 G2) (input : seq F) (pr : uscs_proof G1 G2) : Prop :=
  let V := uv_IC_first vk + \sum_(i < size (uv_IC_rest vk)) nth 0 input i *: nth 0 (uv_IC_rest vk) i + up_V_g1 pr in
  [/\ e V g2 = e g1 (up_V_g2 pr),
      e V (up_V_g2 pr) = e (up_H_g1 pr) (uv_Z_g2 vk) + e g1 g2
    & e (up_V_g1 pr) (uv_alpha_tilde_g2 vk) = e (up_alpha_V_g1 pr) (uv_tilde_g2 vk)].

(** The weak verifier on an input not longer than the key accepts exactly when the equations hold for the input
    padded with zeros. *)
Theorem C51_weak_exact (g1 : G1) (g2 : G2) (vk : uscs_verification_key G1 G2) input pr :
  (size input <= size (uv_IC_rest vk))%N ->
  exists b, uscs_verify_weak e g1 g2 vk input pr = Some b /\
    (b <-> uscs_equations g1 g2 vk (input ++ nseq (size (uv_IC_rest vk) - size input) 0) pr).
Proof.
move=> h; rewrite /uscs_verify_weak h; eexists; split; first by reflexivity.
rewrite /uscs_equations; set pin := input ++ _.
have -> : accumulate_chunk (uv_IC_first vk) (uv_IC_rest vk) input
  = uv_IC_first vk + \sum_(i < size (uv_IC_rest vk)) nth 0 pin i *: nth 0 (uv_IC_rest vk) i.
  rewrite /accumulate_chunk; congr (_ + _).
  rewrite (multiexpE (n := size (uv_IC_rest vk))); last by rewrite h orbT.
  apply: eq_bigr => i _; rewrite /pin nth_cat; case: (ltnP i (size input)) => hi; first by rewrite nth_take.
  by rewrite nth_default // nth_nseq; case: ifP; rewrite !scale0r.
rewrite [up_V_g1 pr + _]addrC !subr_eq0.
have R (x y w : GT) : (- x + y + w == 0) = (x == y + w) by rewrite -addrA addrC subr_eq0 eq_sym.
rewrite R.
by split=> [/and3P[/eqP ? /eqP ? /eqP ?] | [-> -> ->]]; rewrite ?eqxx.
Qed.

(** The strong verifier rejects inputs of another length, and on the key's length accepts exactly when the equations
    hold. *)
Theorem C51_strong_exact (g1 : G1) (g2 : G2) (vk : uscs_verification_key G1 G2) input pr :
  exists b, uscs_verify_strong e g1 g2 vk input pr = Some b /\
    (b <-> size input = size (uv_IC_rest vk) /\ uscs_equations g1 g2 vk input pr).
Proof.
rewrite /uscs_verify_strong; case: eqP => [h|h] /=; last by exists false; split=> //; split=> // -[/esym].
have [|b [-> hb]] := @C51_weak_exact g1 g2 vk input pr; first by rewrite h.
exists b; split=> //; rewrite hb h subnn cats0; by split=> [|[]].
Qed.

(** All elements of the first group a prover is given. *)
Definition uscs_elements (pk : uscs_proving_key G1 G2) (vk : uscs_verification_key G1 G2) : seq G1 :=
  uk_V_g1_query pk ++ uk_alpha_V_g1_query pk ++ uk_H_g1_query pk ++ uv_IC_first vk :: uv_IC_rest vk.

(** Knowledge against linear strategies: fixed coefficients [cV], [cA], [cH] whose combinations of the key elements are
    accepted (with some [V_g2], and some non-zero [tilde]) for more than 2 * degree evaluation points and more than two
    values of [alpha] contain a satisfying auxiliary input. *)
Theorem C51_extracts (asserts : bool) (cs : uscs F) (dom : seq F) (g1 : G1) (g2 : G2) (primary cV cA cH ts alphas : seq F) :
  bilinear e -> e g1 g2 != 0 ->
  uscs_wf cs -> uniq dom -> (0 < size dom)%N -> (size (u_constraints cs) <= size dom)%N ->
  uniq ts -> (2 * size dom < size ts)%N -> uniq alphas -> (2 < size alphas)%N ->
  (forall t alpha, t \in ts -> alpha \in alphas -> exists tilde V2 pk vk,
     [/\ tilde != 0, uscs_generator asserts dom cs t alpha tilde g1 g2 = Some (pk, vk)
       & uscs_verify_strong e g1 g2 vk primary
           (UscsProof (lin cV (uscs_elements pk vk)) (lin cA (uscs_elements pk vk)) (lin cH (uscs_elements pk vk)) V2)
         = Some true]) ->
  let naux := (u_num_variables cs - u_num_inputs cs)%N in
  u_is_satisfied cs primary (mkseq (fun i => nth 0 cA (naux.+1 + i)) naux) = Some true.
Proof.
move=> be u0 wf udom m0 ldom uts lts uas las h naux.
set ni := u_num_inputs cs; set n := u_num_variables cs; set m := size dom.
have lni : (ni <= n)%N := uni_n cs.
pose D := drop ni.+1 (vlist cs dom); pose K := size D.
have sK : K = naux.+1.
  rewrite /K size_drop size_cat size_mkseq /= addn1 subSS subSn //.
pose P c := lin c D + lin (drop (K + K) c) (mkseq (fun i => 'X^i) m.+1 ++ take ni.+1 (vlist cs dom)).
pose Q c := lin (drop K c) D.
have lp c a : lin c (plist cs dom a) = P c + a *: Q c.
  rewrite /plist lin_cat -/ni -/D -/m lin_cat size_map -/K drop_drop /P -[RHS]addrA; congr (_ + _).
  rewrite [RHS]addrC; congr (_ + _).
  rewrite /Q /lin size_map -/K scaler_sumr; apply: eq_bigr => i _; rewrite (nth_map 0) //.
  by rewrite scalerA mulrC -scalerA.
clearbody P; set aux := mkseq _ _.
pose d := nth 0 cA (K + naux).
have [sp hall] : size primary = ni /\ forall t, t \in ts ->
   (forall a, a \in alphas -> a * (lin cV (plist cs dom a)).[t] = (lin cA (plist cs dom a)).[t] /\
    ((lin cV (plist cs dom a)).[t] + part [seq (vpoly cs dom i).[t] | i <- iota 0 n.+1] (primary ++ aux) 0 ni.+1) ^+ 2 - 1
     = (lin cH (plist cs dom a)).[t] * zeval dom t).
  have H t a : t \in ts -> a \in alphas -> size primary = ni /\
     (a * (lin cV (plist cs dom a)).[t] = (lin cA (plist cs dom a)).[t] /\
    ((lin cV (plist cs dom a)).[t] + part [seq (vpoly cs dom i).[t] | i <- iota 0 n.+1] (primary ++ aux) 0 ni.+1) ^+ 2 - 1
     = (lin cH (plist cs dom a)).[t] * zeval dom t).
    move=> ht ha; have [tilde [V2 [pk [vk [ti0 hg]]]]] := h t a ht ha.
    rewrite /uscs_elements (uscs_els wf ldom hg) !lin_batch !lin_horner.
    have [Vt [E eV _]] := ssp_inst wf ldom t; rewrite -/n in eV; rewrite -eV.
    have sV : size Vt = n.+1 by rewrite eV size_map size_iota.
    move: hg; rewrite (uscs_genE asserts a tilde g1 g2 E sV); case: ifP => // _ [_ <-].
    rewrite /uscs_verify_strong [uv_IC_rest _]/= size_map size_behead size_takel ?sV ?ltnS //= -/ni.
    case: eqP => //= sp hv; split=> //; move: hv.
    rewrite /uscs_verify_weak [uv_IC_rest _]/= [uv_IC_first _]/= size_map size_behead size_takel ?sV ?ltnS //= -/ni -sp leqnn.
    rewrite (@accumulate_part _ _ g1 Vt primary aux ni (esym sp)) ?sV ?ltnS //.
    move: (part _ _ _ _) ((lin cV _).[t]) ((lin cA _).[t]) ((lin cH _).[t]) (zeval dom t) => q v w y z.
    rewrite -!scalerDl !(e_scalel be) !(e_scaler be) => -[/and3P[]].
    rewrite subr_eq0 => /eqP h1; rewrite -h1 !scalerA.
    have -> : - (((v + q) * (v + q)) *: e g1 g2) + (y * z) *: e g1 g2 + e g1 g2
      = (- ((v + q) * (v + q)) + y * z + 1) *: e g1 g2 by rewrite !scalerDl scaleNr scale1r.
    rewrite -scalerBl !scaler_eq0 (negPf u0) !orbF.
    move=> /eqP h2 /eqP h3; split.
      have : tilde * (a * v - w) = 0 by rewrite -h3; fring F.
      by move/eqP; rewrite mulf_eq0 (negPf ti0) /= subr_eq0 => /eqP.
    apply/eqP; rewrite -subr_eq0 -oppr_eq0 -h2; apply/eqP; fring F.
  case: (ts) lts H => // t0 ts' _ H; case: (alphas) las H => // a0 as' _ H.
  by split=> [|t ht a ha]; [have [] := H t0 a0 (mem_head _ _) (mem_head _ _) | have [] := H t a ht ha].
have quad t : t \in ts -> (Q cV).[t] = 0 /\ (P cV).[t] = (Q cA).[t].
  move=> ht; have [|_ h1 h2] := @quad_zero _ (- (P cA).[t]) ((P cV).[t] - (Q cA).[t]) (Q cV).[t] alphas uas las.
    move=> a ha; have [h1 _] := hall t ht a ha.
    move: h1; rewrite !lp !hornerD !hornerZ => h1.
    by rewrite -(subrr ((P cA).[t] + a * (Q cA).[t])) -{1}h1; fring F.
  by split=> //; apply/eqP; rewrite -subr_eq0 h1.
pose x := primary ++ aux.
have sx : size x = n by rewrite size_cat sp size_mkseq subnKC.
have [a0 ha0] : exists a, a \in alphas by case: (alphas) las => // a ? _; exists a; rewrite mem_head.
have main t : t \in ts -> ((polyV cs dom x).[t] + d * zeval dom t) * ((polyV cs dom x).[t] + d * zeval dom t)
    - (1.[t] + 0 * zeval dom t) = (lin cH (plist cs dom a0)).[t] * zeval dom t.
  move=> ht; have [_ <-] := hall t ht a0 ha0; have [q0 q1] := quad t ht.
  have [Vt [_ eV hV]] := ssp_inst wf ldom t.
  rewrite lp hornerD hornerZ q0 mulr0 addr0 q1 /Q (lin_aux _ eV sp) -/naux.
  have -> : mkseq (nth 0 (drop K cA)) naux = aux.
    by apply: (@eq_from_nth _ 0); rewrite ?size_mkseq // => i hi; rewrite !nth_mkseq // nth_drop sK.
  rewrite -hV // (part_splitN cs Vt) -eV nth_drop -/d -/x -/n -/ni.
  rewrite hornerC mul0r addr0; move: (part _ _ _ _) (part _ _ _ _) => p q; fring F.
have hsat : forall l, l \in u_constraints cs -> denote l x ^+ 2 = 1.
  move=> l /(nthP [::]) [i li <-].
  have lim : (i < size dom)%N by rewrite (leq_trans li).
  have := @program_sound _ dom ts (polyV cs dom x) (polyV cs dom x) 1
    (lin cH (plist cs dom a0)) d d 0 m0 (size_inv_poly _ _) (size_inv_poly _ _) (size_poly1_le m0).
  rewrite size_lin ?size_plist // => /(_ isT uts lts main _ (mem_nth 0 lim)).
  by rewrite polyV_at // /valV li hornerC expr2.
have [||b [eb hb]] := @C02_uscs_is_satisfied _ cs primary aux wf; rewrite ?sp ?size_mkseq ?subnKC //.
by rewrite eb; congr Some; apply/hb.
Qed.
End C51.

(** Non-vacuity: the system of C07 over F_17, groups = the field itself, pairing = multiplication. *)
Definition C51_keys (asserts : bool) (t alpha : C07_F) :=
  @uscs_generator _ C08_V C08_V asserts C07_dom C07_sys t alpha 7%:R (1 : C07_F) (3%:R : C07_F).
Definition C51_run (d : C07_F) (primary claimed aux : seq C07_F) : option bool :=
  obnd (C51_keys true 6%:R 5%:R) (fun k => obnd (uscs_prover C07_dom 3%:R k.1 primary aux d) (fun pr =>
    uscs_verify_strong C08_e (1 : C07_F) (3%:R : C07_F) k.2 claimed pr)).
Example C51_witness :
  C51_run 4%:R [:: 1] [:: 1] [:: - 2%:R] = Some true /\ C51_run 0 [:: 1] [:: 1] [:: - 2%:R] = Some true
  /\ C51_run 4%:R [:: 1] [:: 2%:R] [:: - 2%:R] = Some false
  /\ C51_run 4%:R [:: 1] [:: 1; 0] [:: - 2%:R] = Some false
  /\ C51_run 4%:R [:: 1] [:: 1] [:: 5%:R] = Some false.
Proof. by vm_compute. Qed.

(** The second input of this system is not used. *)
Example C51_unused : uscs_wf (Uscs 2 0 [:: lc_var C07_F 1]) /\ coef_of (lc_var C07_F 1) 2 = 0
  /\ u_is_satisfied (Uscs 2 0 [:: lc_var C07_F 1]) [:: 1; 5%:R] [::] = Some true.
Proof.
split; first by move=> l; rewrite inE => /eqP -> t; rewrite inE => /eqP ->.
by split; [rewrite /coef_of big_cons big_nil | vm_compute].
Qed.

(** The honest strategy as coefficients: accepted for nine evaluation points and three values of alpha. *)
Definition C51_strategy (y d : C07_F) (H : seq C07_F) (t alpha : C07_F) : option bool :=
  obnd (C51_keys false t alpha) (fun k =>
    let els : seq C08_V := uscs_elements k.1 k.2 in
    let V := foldr (fun (p : C07_F * C07_F) s => p.1 * p.2 + s) 0 (zip [:: y; d] els) in
    let A := foldr (fun (p : C07_F * C07_F) s => p.1 * p.2 + s) 0 (zip [:: 0; 0; y; d] els) in
    let h := foldr (fun (p : C07_F * C07_F) s => p.1 * p.2 + s) 0 (zip (nseq 4 0 ++ H) els) in
    let V2 := 3%:R * (V + accumulate_chunk (uv_IC_first k.2) (uv_IC_rest k.2) [:: 1]) in
    uscs_verify_strong C08_e (1 : C07_F) (3%:R : C07_F) k.2 [:: 1] (UscsProof (V : C08_V) (A : C08_V) (h : C08_V) (V2 : C08_V))).
Example C51_strategy_witness :
  let H := oapp (@pw_H _) [::] (ssp_witness_map C07_dom 3%:R C07_sys [:: 1] [:: - 2%:R] 5%:R) in
  all (fun t => all (fun a => C51_strategy (- 2%:R) 5%:R H t%:R a%:R == Some true) [:: 1; 2; 3]%N) (iota 2 9)
  /\ ~~ all (fun t => C51_strategy 3%:R 5%:R H t%:R 1 == Some true) (iota 2 9).
Proof. by vm_compute. Qed.

Print Assumptions C51_complete.
Print Assumptions C51_generates.
Print Assumptions C51_unused_input_refuted.
Print Assumptions C51_witness_independent.
Print Assumptions C51_weak_exact.
Print Assumptions C51_strong_exact.
Print Assumptions C51_extracts.
