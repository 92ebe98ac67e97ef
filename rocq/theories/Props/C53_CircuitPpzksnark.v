(** C53: the circuit ppzkSNARKs (BACS through R1CS, TBCS through USCS): honest proofs of satisfied circuits are accepted and
    do not depend on the auxiliary input; a linear strategy accepted for many trapdoors contains a satisfying input. *)
From mathcomp Require Import all_ssreflect all_algebra.
From Verif.Model Require Import Base LinearCombination ConstraintSystems Circuits Domain ArithmeticPrograms KnowledgeCommitment
  Groth16 OrderedMap Pghr UscsPpzksnark CircuitPpzksnark.
From Verif.Spec Require Import LinearSpec GroupSpec AlgebraicSpec.
From Verif.Proofs Require Import FieldTac LinearProofs NatTac BacsProofs TbcsProofs PlaceholderRun.
From Verif.Props Require Import C02_R1csSemantics C03_BacsToR1cs C04_TbcsToUscs C05_R1csToQap C07_UscsToSsp C08_Groth16Complete
  C50_R1csPpzksnark C51_UscsPpzksnark.
Set Implicit Arguments.
Unset Strict Implicit.
Unset Printing Implicit Defensive.
Import GRing.Theory.
Local Open Scope ring_scope.

Section C53.
Variables (F : fieldType) (G1 G2 GT : lmodType F) (e : G1 -> G2 -> GT).

Lemma bacs_instance_wf (c : bacs F) : b_is_valid c = Some true -> r1cs_wf (bacs_to_r1cs_instance c).
Proof.
move=> /valid_wf; rewrite addn0 => wf k kin; have := r1cs_inst_wf wf kin.
by rewrite /r_num_variables /= /b_num_wires /b_num_inputs /b_num_gates addnA.
Qed.

Lemma tbcs_instance_wf (c : tbcs) : t_is_valid c -> uscs_wf (tbcs_to_uscs_instance F c).
Proof.
move=> /tvalid_wf; rewrite addn0 => wf l lin; have := uscs_inst_wf wf lin.
by rewrite /u_num_variables /= /t_num_wires /t_num_inputs /t_num_gates addnA.
Qed.

Lemma coef_bool_lc i j : coef_of (tbcs_bool_lc F i) j = 2%:R * (i == j)%:R - (j == 0%N)%:R.
Proof.
rewrite /tbcs_bool_lc /lc_sub lc_add_coef /lc_opp lc_scale_coef !coef_cons !coef_nil /= !addr0 !mulr1 mulN1r.
by rewrite [(0 == j)%N]eq_sym; do 2!case: eqP; rewrite ?mulr1 ?mulr0.
Qed.

(** The two honest parties' view of a satisfied circuit. *)
Lemma bacs_witness_sat (c : bacs F) primary auxiliary :
  b_is_valid c = Some true ->
  size primary = b_primary_input_size c -> size auxiliary = b_auxiliary_input_size c ->
  b_is_satisfied c primary auxiliary = Some true ->
  exists w, [/\ bacs_to_r1cs_witness c primary auxiliary = Some w,
    (size primary + size (drop (size primary) w))%N = r_num_variables (bacs_to_r1cs_instance c)
    & r_is_satisfied (bacs_to_r1cs_instance c) primary (drop (size primary) w) = Some true].
Proof.
move=> va sp sa sat.
have [w [b [hw ew hb hr]]] := C03_witness_map_equivalent va sp sa.
exists w; split=> //; last by rewrite sp hr -hb sat.
have := valid_wf va; rewrite addn0 -[b_num_inputs c]/(_ + _)%N -sp -sa -size_cat => wf.
have [w' [hw' sw']] := bwires_exists wf.
move: hw; rewrite /bacs_to_r1cs_witness /b_get_all_wires -/(bwires _ _) hw' => -[<-].
rewrite size_drop sw' size_cat /r_num_variables /= sp sa.
by rewrite subnKC ?addnA // -!addnA leq_addr.
Qed.

(** Completeness for BACS circuits: whenever key generation returns, for every satisfying input and all randomness the
    prover succeeds and the strong verifier accepts its proof. *)
Theorem C53_bacs_complete (asserts : bool) (c : bacs F) (dom : seq F) (gen t alphaA alphaB alphaC rA rB beta gamma : F) (g1 : G1) (g2 : G2)
    (chunks : nat) pk vk :
  bilinear e -> b_is_valid c = Some true -> uniq dom ->
  (r_num_constraints (bacs_to_r1cs_instance c) + b_primary_input_size c + 1 <= size dom)%N ->
  gen != 0 -> (forall x, x \in dom -> gen * x \notin dom) ->
  bacs_generator asserts dom c t alphaA alphaB alphaC rA rB beta gamma g1 g2 chunks = Some (pk, vk) ->
  forall primary auxiliary d1 d2 d3,
    size primary = b_primary_input_size c -> size auxiliary = b_auxiliary_input_size c ->
    b_is_satisfied c primary auxiliary = Some true ->
    exists2 pr, bacs_prover dom gen pk primary auxiliary d1 d2 d3 = Some pr &
                bacs_verify_strong e g2 vk primary pr = Some true.
Proof.
move=> bl va ud sd g0 gd; rewrite /bacs_generator.
case hk: pghr_generator => [[k1 k2]|//] [<- <-] primary auxiliary d1 d2 d3 sp sa sat.
have [w [hw sw hs]] := bacs_witness_sat va sp sa sat.
rewrite /bacs_prover hw /=.
exact: (C50_complete bl (bacs_instance_wf va) ud sd g0 gd hk d1 d2 d3 sp sw hs).
Qed.

(** For two satisfying auxiliary inputs of the same primary input there is a bijection of the randomness that turns each
    proof made with the first into the identical proof made with the second. *)
Theorem C53_bacs_witness_independent (asserts : bool) (c : bacs F) (dom : seq F)
    (gen t alphaA alphaB alphaC rA rB beta gamma : F) (g1 : G1) (g2 : G2) (chunks : nat) pk vk :
  b_is_valid c = Some true -> uniq dom ->
  (r_num_constraints (bacs_to_r1cs_instance c) + b_primary_input_size c + 1 <= size dom)%N ->
  gen != 0 -> (forall x, x \in dom -> gen * x \notin dom) -> t \notin dom ->
  bacs_generator asserts dom c t alphaA alphaB alphaC rA rB beta gamma g1 g2 chunks = Some (pk, vk) ->
  forall primary aux1 aux2,
    size primary = b_primary_input_size c ->
    size aux1 = b_auxiliary_input_size c -> size aux2 = b_auxiliary_input_size c ->
    b_is_satisfied c primary aux1 = Some true -> b_is_satisfied c primary aux2 = Some true ->
    exists2 f : F * F * F -> F * F * F, bijective f &
      forall d, exists2 pr, bacs_prover dom gen pk primary aux1 d.1.1 d.1.2 d.2 = Some pr &
                            bacs_prover dom gen pk primary aux2 (f d).1.1 (f d).1.2 (f d).2 = Some pr.
Proof.
move=> va ud sd g0 gd td; rewrite /bacs_generator.
case hk: pghr_generator => [[k1 k2]|//] [<- _] primary aux1 aux2 sp s1 s2 sat1 sat2.
have [w1 [hw1 sw1 hs1]] := bacs_witness_sat va sp s1 sat1.
have [w2 [hw2 sw2 hs2]] := bacs_witness_sat va sp s2 sat2.
rewrite /bacs_prover hw1 hw2 /=.
exact: (C50_witness_independent (bacs_instance_wf va) ud sd g0 gd td hk sp sw1 sw2 hs1 hs2).
Qed.

(** With assertions BACS key generation returns for all but at most (inputs + 1) * (degree - 1) evaluation points. *)
Theorem C53_bacs_generates (c : bacs F) (dom ts : seq F) (g1 : G1) (g2 : G2) (chunks : nat) :
  b_is_valid c = Some true -> uniq dom ->
  (r_num_constraints (bacs_to_r1cs_instance c) + b_primary_input_size c + 1 <= size dom)%N -> uniq ts ->
  (forall t, t \in ts -> exists alphaA alphaB alphaC rA rB beta gamma,
     bacs_generator true dom c t alphaA alphaB alphaC rA rB beta gamma g1 g2 chunks = None) ->
  (size ts <= (b_primary_input_size c).+1 * (size dom).-1)%N.
Proof.
move=> va ud sd ut h; apply: (@C50_generates F G1 G2 _ dom ts g1 g2 chunks (bacs_instance_wf va) ud sd ut) => t /h.
move=> [aA [aB [aC [rA [rB [be [ga hg]]]]]]]; exists aA, aB, aC, rA, rB, be, ga.
by move: hg; rewrite /bacs_generator; case: pghr_generator.
Qed.

(** Knowledge soundness against linear strategies for BACS circuits: fixed linear combinations of the key elements
    that are accepted for the claimed primary input at more than 2 * |dom| evaluation points and three or more non-zero
    values of the other trapdoor elements contain an auxiliary input that satisfies the circuit. *)
Theorem C53_bacs_extracts (asserts : bool) (c : bacs F) (dom : seq F) (g1 : G1) (g2 : G2) (chunks : nat)
    (primary cA cA' cB cB' cC cC' cH cK ts S : seq F) :
  bilinear e -> e g1 g2 != 0 -> b_is_valid c = Some true -> uniq dom ->
  (r_num_constraints (bacs_to_r1cs_instance c) + b_primary_input_size c + 1 <= size dom)%N ->
  uniq ts -> (2 * size dom < size ts)%N -> uniq S -> (2 < size S)%N -> 0 \notin S ->
  size primary = b_primary_input_size c ->
  (forall t alphaA alphaB alphaC rA rB beta gamma, t \in ts ->
     all (fun x => x \in S) [:: alphaA; alphaB; alphaC; rA; rB; beta; gamma] -> exists pk vk,
     bacs_generator asserts dom c t alphaA alphaB alphaC rA rB beta gamma g1 g2 chunks = Some (pk, vk) /\
     let E1 := pghr_elements1 pk.2 vk in let E2 := pghr_elements2 pk.2 vk g2 in
     bacs_verify_strong e g2 vk primary
       (PghrProof (lin cA E1, lin cA' E1) (lin cB E2, lin cB' E1) (lin cC E1, lin cC' E1) (lin cH E1) (lin cK E1)) = Some true) ->
  let auxiliary := mkseq (fun i => nth 0 cK ((b_primary_input_size c).+1 + i)) (b_auxiliary_input_size c) in
  b_is_satisfied c primary auxiliary = Some true.
Proof.
move=> bl e0 va ud sd ut st uS sS S0 sp h /=.
have := @C50_extracts _ _ _ _ e asserts (bacs_to_r1cs_instance c) dom g1 g2 chunks primary cA cA' cB cB' cC cC' cH cK ts S
  bl e0 (bacs_instance_wf va) ud sd ut st uS sS S0.
move=> hx; lapply hx; last first.
  move=> t aA aB aC rA rB be ga tin ain; have [pk [vk [hg hv]]] := h t aA aB aC rA rB be ga tin ain.
  move: hg hv; rewrite /bacs_generator; case: pghr_generator => [[k1 k2]|//] [<- <-] hv.
  by exists k1, k2.
rewrite /r_num_variables /r_num_inputs /= addKn.
set u := mkseq _ _ => sat.
have su : size u = (b_auxiliary_input_size c + b_num_gates c)%N by rewrite size_mkseq.
have [_] := C03_sound va sp su sat.
suff -> : take (b_auxiliary_input_size c) u
  = mkseq (fun i => nth 0 cK (b_primary_input_size c + i).+1) (b_auxiliary_input_size c) by [].
by rewrite /u /mkseq -map_take take_iota (minn_idPl (leq_addr _ _)).
Qed.

Lemma tbcs_witness_sat (c : tbcs) primary auxiliary :
  t_is_valid c -> gate_types_ok c ->
  size primary = t_primary_input_size c -> size auxiliary = t_auxiliary_input_size c ->
  t_is_satisfied c primary auxiliary = Some true ->
  exists w, [/\ tbcs_to_uscs_witness F c primary auxiliary = Some w,
    (size (bits_to_field F primary) + size (drop (size primary) w))%N = u_num_variables (tbcs_to_uscs_instance F c)
    & u_is_satisfied (tbcs_to_uscs_instance F c) (bits_to_field F primary) (drop (size primary) w) = Some true].
Proof.
move=> va gt sp sa sat.
have [w [b [b' [hw hb hr bb' _]]]] := C04_witness_map F va gt sp sa.
have sb : size (bits_to_field F primary) = size primary by rewrite size_map.
exists (bits_to_field F primary ++ w); rewrite drop_size_cat //; split=> //; last first.
  by rewrite hr; congr Some; apply: bb'; move: hb; rewrite sat => -[<-].
have := tvalid_wf va; rewrite addn0 -[t_num_inputs c]/(_ + _)%N -sp -sa -size_cat => wf.
have [w' [hw' sw']] := twires_exists wf.
move: hw; rewrite /tbcs_to_uscs_witness /t_get_all_wires -/(twires _ _) hw' /= => -[/(congr1 size)].
rewrite size_cat size_map sw' => <-.
by rewrite size_cat /u_num_variables /= sp sa addnA.
Qed.

(** Completeness for TBCS circuits. *)
Theorem C53_tbcs_complete (asserts : bool) (c : tbcs) (dom : seq F) (gen t alpha tilde : F) (g1 : G1) (g2 : G2) pk vk :
  bilinear e -> t_is_valid c -> gate_types_ok c -> uniq dom -> (0 < size dom)%N ->
  (size (u_constraints (tbcs_to_uscs_instance F c)) <= size dom)%N ->
  gen != 0 -> (forall x, x \in dom -> gen * x \notin dom) ->
  tbcs_generator asserts dom c t alpha tilde g1 g2 = Some (pk, vk) ->
  forall primary auxiliary d,
    size primary = t_primary_input_size c -> size auxiliary = t_auxiliary_input_size c ->
    t_is_satisfied c primary auxiliary = Some true ->
    exists2 pr, tbcs_prover dom gen pk primary auxiliary d = Some pr &
                tbcs_verify_strong e g1 g2 vk primary pr = Some true.
Proof.
move=> bl va gt ud d0 sd g0 gd; rewrite /tbcs_generator.
case hk: uscs_generator => [[k1 k2]|//] [<- <-] primary auxiliary d sp sa sat.
have [w [hw sw hs]] := tbcs_witness_sat va gt sp sa sat.
rewrite /tbcs_prover hw /=.
have sp' : size (bits_to_field F primary) = u_num_inputs (tbcs_to_uscs_instance F c) by rewrite size_map.
exact: (C51_complete bl (tbcs_instance_wf va) ud d0 sd g0 gd hk d sp' sw hs).
Qed.

(** Witness independence for TBCS circuits. *)
Theorem C53_tbcs_witness_independent (asserts : bool) (c : tbcs) (dom : seq F) (gen t alpha tilde : F) (g1 : G1) (g2 : G2) pk vk :
  t_is_valid c -> gate_types_ok c -> uniq dom -> (0 < size dom)%N ->
  (size (u_constraints (tbcs_to_uscs_instance F c)) <= size dom)%N ->
  gen != 0 -> (forall x, x \in dom -> gen * x \notin dom) -> t \notin dom ->
  tbcs_generator asserts dom c t alpha tilde g1 g2 = Some (pk, vk) ->
  forall primary aux1 aux2,
    size primary = t_primary_input_size c ->
    size aux1 = t_auxiliary_input_size c -> size aux2 = t_auxiliary_input_size c ->
    t_is_satisfied c primary aux1 = Some true -> t_is_satisfied c primary aux2 = Some true ->
    exists2 f : F -> F, bijective f &
      forall d, exists2 pr, tbcs_prover dom gen pk primary aux1 d = Some pr &
                            tbcs_prover dom gen pk primary aux2 (f d) = Some pr.
Proof.
move=> va gt ud d0 sd g0 gd td; rewrite /tbcs_generator.
case hk: uscs_generator => [[k1 k2]|//] [<- _] primary aux1 aux2 sp s1 s2 sat1 sat2.
have [w1 [hw1 sw1 hs1]] := tbcs_witness_sat va gt sp s1 sat1.
have [w2 [hw2 sw2 hs2]] := tbcs_witness_sat va gt sp s2 sat2.
rewrite /tbcs_prover hw1 hw2 /=.
have sp' : size (bits_to_field F primary) = u_num_inputs (tbcs_to_uscs_instance F c) by rewrite size_map.
exact: (C51_witness_independent (tbcs_instance_wf va) ud d0 sd g0 gd td hk sp' sw1 sw2 hs1 hs2).
Qed.

(** With assertions TBCS key generation returns for all but at most (inputs + 1) * (degree - 1) evaluation points, if the
    circuit has a wire that is not a primary input. *)
Theorem C53_tbcs_generates (c : tbcs) (dom ts : seq F) (g1 : G1) (g2 : G2) :
  (2%:R : F) != 0 -> t_is_valid c -> (t_primary_input_size c < t_num_wires c)%N -> uniq dom -> (0 < size dom)%N ->
  (size (u_constraints (tbcs_to_uscs_instance F c)) <= size dom)%N -> uniq ts ->
  (forall t, t \in ts -> exists alpha tilde, tbcs_generator true dom c t alpha tilde g1 g2 = None) ->
  (size ts <= (t_primary_input_size c).+1 * (size dom).-1)%N.
Proof.
move=> F2 va nw ud d0 sd ut h.
apply: (@C51_generates F G1 G2 _ dom ts g1 g2 (tbcs_instance_wf va) ud d0 sd _ ut) => [i ile|t /h [al [ti hg]]].
  left; exists (tbcs_bool_lc F i).
    rewrite /= !mem_cat map_f ?orbT // mem_iota add0n.
    exact: leq_ltn_trans ile nw.
  rewrite coef_bool_lc; case: i ile => [|i] _; rewrite eqxx ?subr0 mulr1 //.
  by rewrite -[2%:R]/(1 + 1) addrK oner_eq0.
exists al, ti; move: hg; rewrite /tbcs_generator; by case: uscs_generator.
Qed.

(** Finding: a circuit made of primary inputs only cannot get keys when assertions are compiled in: the booleanity
    constraints skip the last wire. *)
Theorem C53_tbcs_generates_refuted (n : nat) (dom : seq F) (t alpha tilde : F) (g1 : G1) (g2 : G2) :
  uniq dom -> (n < size dom)%N ->
  t_is_valid (Tbcs n.+1 0 [::]) /\ tbcs_generator true dom (Tbcs n.+1 0 [::]) t alpha tilde g1 g2 = None.
Proof.
move=> ud nd; split=> //; rewrite /tbcs_generator.
have uE : u_constraints (tbcs_to_uscs_instance F (Tbcs n.+1 0 [::])) = [seq tbcs_bool_lc F i | i <- iota 0 n.+1].
  by rewrite -[LHS]/([seq tbcs_bool_lc F i | i <- iota 0 (n.+1 + 0 + 0)] ++ [::]) cats0 !addn0.
rewrite (@C51_unused_input_refuted _ _ _ _ dom n.+1) //.
- exact: tbcs_instance_wf.
- by rewrite uE size_map size_iota.
- by rewrite /u_num_inputs /= leqnn.
move=> l; rewrite uE => /mapP[i]; rewrite mem_iota add0n => /andP[_ ilt] ->.
by rewrite coef_bool_lc (ltn_eqF ilt) mulr0 subrr.
Qed.

(** Knowledge soundness against linear strategies for TBCS circuits: the strategy's coefficients determine auxiliary bits
    that satisfy the circuit. *)
Theorem C53_tbcs_extracts (asserts : bool) (c : tbcs) (dom : seq F) (g1 : G1) (g2 : G2) (primary : seq bool)
    (cV cA cH ts alphas : seq F) :
  (2%:R : F) != 0 -> (3%:R : F) != 0 -> (5%:R : F) != 0 -> (7%:R : F) != 0 ->
  bilinear e -> e g1 g2 != 0 ->
  t_is_valid c -> gate_types_ok c -> uniq dom -> (0 < size dom)%N ->
  (size (u_constraints (tbcs_to_uscs_instance F c)) <= size dom)%N ->
  uniq ts -> (2 * size dom < size ts)%N -> uniq alphas -> (2 < size alphas)%N ->
  size primary = t_primary_input_size c ->
  (forall t alpha, t \in ts -> alpha \in alphas -> exists tilde V2 pk vk,
     [/\ tilde != 0, tbcs_generator asserts dom c t alpha tilde g1 g2 = Some (pk, vk)
       & let E := uscs_elements pk.2 vk in
         tbcs_verify_strong e g1 g2 vk primary (UscsProof (lin cV E) (lin cA E) (lin cH E) V2) = Some true]) ->
  exists2 auxiliary : seq bool, size auxiliary = t_auxiliary_input_size c & t_is_satisfied c primary auxiliary = Some true.
Proof.
move=> F2 F3 F5 F7 bl e0 va gt ud d0 sd ut st ua sa sp h.
have := @C51_extracts _ _ _ _ e asserts (tbcs_to_uscs_instance F c) dom g1 g2 (bits_to_field F primary) cV cA cH ts alphas
  bl e0 (tbcs_instance_wf va) ud d0 sd ut st ua sa.
move=> hx; lapply hx; last first.
  move=> t al tin ain; have [ti [V2 [pk [vk [t0 hg hv]]]]] := h t al tin ain.
  move: hg hv; rewrite /tbcs_generator; case hk: uscs_generator => [[k1 k2]|//] [<- <-] hv.
  by exists ti, V2, k1, k2.
rewrite /u_num_variables /u_num_inputs /= addKn.
set u := mkseq _ _ => sat.
have su : size u = (t_auxiliary_input_size c + t_num_gates c)%N by rewrite size_mkseq.
have [aux [w [s1 _ s2 _]]] := C04_sound F2 F3 F5 F7 va gt sp su sat.
by exists aux.
Qed.
End C53.

(** Non-vacuity over F_17, groups = the field itself, pairing = multiplication. BACS: x3 = x1 * (x2 - 3) is an output,
    x1 primary, x2 auxiliary. TBCS: the circuit of C04 with a domain of eight points. *)
Definition C53_bacs : bacs C05_F := Bacs 1 1 [:: BacsGate [:: (1%N, 1)] [:: (0%N, - 3%:R); (2%N, 1)] 3 true].
Definition C53_dom : seq C05_F := [seq 2%:R ^+ i | i <- iota 0 8].
Example C53_hypotheses :
  b_is_valid C53_bacs = Some true
  /\ (r_num_constraints (bacs_to_r1cs_instance C53_bacs) + b_primary_input_size C53_bacs + 1 <= size C05_dom)%N
  /\ t_is_valid C04_circuit /\ (t_primary_input_size C04_circuit < t_num_wires C04_circuit)%N
  /\ uniq C53_dom /\ (size (u_constraints (tbcs_to_uscs_instance C05_F C04_circuit)) <= size C53_dom)%N
  /\ all (fun x => 3%:R * x \notin C53_dom) C53_dom /\ 0 \notin C53_dom
  /\ [&& (2%:R : C05_F) != 0, (3%:R : C05_F) != 0, (5%:R : C05_F) != 0 & (7%:R : C05_F) != 0].
Proof. by vm_compute. Qed.

Definition C53_bacs_run (d : C05_F) (primary claimed aux : seq C05_F) : option bool :=
  obnd (@bacs_generator _ C08_V C08_V true C05_dom C53_bacs 6%:R 6%:R 7%:R 8%:R 9%:R 2%:R 3%:R 10%:R (1 : C05_F) (3%:R : C05_F) 2)
  (fun k => obnd (bacs_prover C05_dom 3%:R k.1 primary aux d 11%:R 12%:R) (fun pr =>
    bacs_verify_strong C08_e (3%:R : C05_F) k.2 claimed pr)).
Example C53_bacs_witness :
  C53_bacs_run 4%:R [:: 2%:R] [:: 2%:R] [:: 3%:R] = Some true
  /\ C53_bacs_run 4%:R [:: 0] [:: 0] [:: 5%:R] = Some true /\ C53_bacs_run 4%:R [:: 0] [:: 0] [:: 6%:R] = Some true
  /\ C53_bacs_run 4%:R [:: 2%:R] [:: 1] [:: 3%:R] = Some false
  /\ C53_bacs_run 4%:R [:: 2%:R] [:: 2%:R] [:: 4%:R] = Some false.
Proof. by vm_compute. Qed.

Definition C53_tbcs_run (d : C05_F) (primary claimed aux : seq bool) : option bool :=
  obnd (@tbcs_generator _ C08_V C08_V true C53_dom C04_circuit 0 5%:R 7%:R (1 : C05_F) (3%:R : C05_F))
  (fun k => obnd (tbcs_prover C53_dom 3%:R k.1 primary aux d) (fun pr =>
    tbcs_verify_strong C08_e (1 : C05_F) (3%:R : C05_F) k.2 claimed pr)).
Example C53_tbcs_witness :
  C53_tbcs_run 4%:R [:: true] [:: true] [:: true] = Some true /\ C53_tbcs_run 9%:R [:: false] [:: false] [:: false] = Some true
  /\ C53_tbcs_run 4%:R [:: true] [:: false] [:: true] = Some false
  /\ C53_tbcs_run 4%:R [:: true] [:: true] [:: false] = Some false
  /\ C53_tbcs_run 4%:R [:: true] [:: true; false] [:: true] = Some false.
Proof. by vm_compute. Qed.

(** The honest strategies as coefficients. *)
Definition C53_bacs_strategy (x H : seq C05_F) (t aA aB aC rA rB be ga : C05_F) : option bool :=
  obnd (@bacs_generator _ C08_V C08_V false C05_dom C53_bacs t aA aB aC rA rB be ga (1 : C05_F) (3%:R : C05_F) 1) (fun k =>
    let E1 : seq C05_F := pghr_elements1 k.1.2 k.2 in
    let E2 : seq C05_F := pghr_elements2 k.1.2 k.2 (3%:R : C05_F) in
    let at1 i := C50_lin (nseq i 0 ++ 1 :: x) E1 : C08_V in
    bacs_verify_strong C08_e (3%:R : C05_F) k.2 (take 1 x)
      (PghrProof (at1 12%N, at1 17%N) (C50_lin (1 :: x) E2 : C08_V, at1 22%N) (at1 27%N, at1 32%N)
         (C50_lin (nseq 7 0 ++ H) E1 : C08_V) (at1 0%N))).
Example C53_bacs_strategy_witness :
  let H := oapp (@qw_H _) [::] (qap_witness_map C05_dom 3%:R (swap_AB_if_beneficial (bacs_to_r1cs_instance C53_bacs))
    [:: 2%:R] [:: 3%:R; 0] 0 0 0) in
  let ts := [:: 0; 2; 3; 5; 6; 7; 8; 9; 10]%N in
  all (fun t => C50_all (fun aA => C50_all (fun aB => C50_all (fun aC => C50_all (fun rA => C50_all (fun rB =>
    C50_all (fun be => C50_all (fun ga => C53_bacs_strategy [:: 2%:R; 3%:R; 0] H t%:R aA aB aC rA rB be ga == Some true)))))))) ts
  /\ ~~ all (fun t => C53_bacs_strategy [:: 2%:R; 4%:R; 0] H t%:R 1 1 1 1 1 1 1 == Some true) ts.
Proof. by vm_compute. Qed.

Definition C53_tbcs_strategy (x H : seq C05_F) (d t alpha : C05_F) : option bool :=
  obnd (@tbcs_generator _ C08_V C08_V false C53_dom C04_circuit t alpha 7%:R (1 : C05_F) (3%:R : C05_F)) (fun k =>
    let E : seq C05_F := uscs_elements k.1.2 k.2 in
    let V := C50_lin (rcons x d) E in
    let V2 := 3%:R * (V + accumulate_chunk (uv_IC_first k.2) (uv_IC_rest k.2) [:: 1]) in
    tbcs_verify_strong C08_e (1 : C05_F) (3%:R : C05_F) k.2 [:: true]
      (UscsProof (V : C08_V) (C50_lin (nseq 4 0 ++ rcons x d) E : C08_V) (C50_lin (nseq 8 0 ++ H) E : C08_V) (V2 : C08_V))).
Example C53_tbcs_strategy_witness :
  let H := oapp (@pw_H _) [::] (ssp_witness_map C53_dom 3%:R (tbcs_to_uscs_instance C05_F C04_circuit) [:: 1] [:: 1; 0; 1] 5%:R) in
  all (fun t => all (fun a => C53_tbcs_strategy [:: 1; 0; 1] H 5%:R t%:R a%:R == Some true) [:: 1; 2; 3]%N) (iota 0 17)
  /\ ~~ all (fun t => C53_tbcs_strategy [:: 0; 1; 0] H 5%:R t%:R 1 == Some true) (iota 0 17).
Proof. by vm_compute. Qed.

Print Assumptions C53_bacs_complete.
Print Assumptions C53_bacs_witness_independent.
Print Assumptions C53_bacs_generates.
Print Assumptions C53_bacs_extracts.
Print Assumptions C53_tbcs_complete.
Print Assumptions C53_tbcs_witness_independent.
Print Assumptions C53_tbcs_generates.
Print Assumptions C53_tbcs_generates_refuted.
Print Assumptions C53_tbcs_extracts.
