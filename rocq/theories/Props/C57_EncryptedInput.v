(** C57: Groth16 with encrypted inputs. *)
From mathcomp Require Import all_ssreflect all_algebra.
From Verif.Model Require Import Base LinearCombination ConstraintSystems Domain ArithmeticPrograms KnowledgeCommitment Groth16 EncryptedInput.
From Verif.Spec Require Import LinearSpec GroupSpec EncryptedSpec.
From Verif.Proofs Require Import FieldTac LinearProofs DomainProofs QapProofs KcProofs Groth16Proofs KzgProofs EncryptedProofs.
From Verif.Props Require Import C02_R1csSemantics C05_R1csToQap C08_Groth16Complete C10_Groth16Input.
Set Implicit Arguments.
Unset Strict Implicit.
Unset Printing Implicit Defensive.
Import GRing.Theory.
Local Open Scope ring_scope.

Section C57.
Variables (F : fieldType) (G1 G2 GT : lmodType F) (e : G1 -> G2 -> GT).
Hypothesis be : bilinear e.
Add Field Ff_c57 : (@ffield_theory F).
Implicit Types (vk : g16_verification_key G1 G2 GT) (pr : g16_proof G1 G2).
Variables (g1 : G1) (g2 : G2) (gamma delta : F) (s : seq F) (t0 : F) (t : seq F).
Notation n := (size s).
Notation pubkey vk := (honest_pubkey g1 g2 gamma delta (vk_gamma_ABC_rest vk) s t0 t).
Lemma tag_ring (a r b d : F) : a * (r * b * d) = r * d * (a * b). Proof. fring F. Qed.
Lemma strip_field (r g d S : F) : d != 0 -> r * (- (g * S)) + g / d * S * (r * d) = 0. Proof. move=> dn; ffield F. Qed.
(** A proof without the part that belongs to the encryption *)
Definition stripped (ct : seq G1) pr : g16_proof G1 G2 :=
  G16Proof (pr_A pr) (pr_B pr) (pr_C pr + (gamma / delta * (1 + \sum_(i < n) nth 0 s i)) *: nth 0 ct 0).

(** Whoever made the ciphertext and the proof: let the ciphertext decrypt to [m]. Then the proof is accepted exactly if the
    ciphertext carries the right tag and the proof, stripped of the encryption, is accepted by Groth16's verifier for the inputs
    [m] and the unencrypted ones. *)
Theorem C57_exact vk ct m unencrypted pr : nondegenerate_left e -> g2 != 0 -> delta != 0 ->
  vk_gamma_g2 vk = gamma *: g2 -> vk_delta_g2 vk = delta *: g2 ->
  size t = n -> size ct = n.+2 -> size m = n -> (n + size unencrypted)%N = size (vk_gamma_ABC_rest vk) -> (2 <= size unencrypted)%N ->
  decrypts_to (vk_gamma_ABC_rest vk) s ct m ->
  exists b, enc_verify e g2 ct vk (pubkey vk) unencrypted pr = Some b /\
    (b <-> tagged s t0 t ct /\ g16_verify_strong e vk (m ++ unencrypted) (stripped ct pr) = Some true).
Proof.
move=> nd g2n dn vg vd st sc sm si su dec.
have [_ [b [-> eb]]] := @C10_strong_exact _ _ _ _ e vk (m ++ unencrypted) (stripped ct pr) (etrans (size_cat _ _) (etrans (congr1 (addn^~ _) sm) si)).
rewrite (enc_verifyE e g2 pr sc si su) ?size_map ?size_iota //=; last by rewrite st.
eexists; split; first by reflexivity.
have -> : (Some b = Some true) <-> b by split=> [[]|->].
rewrite eb /g16_equation /= -si.
have [h1 h2] : (\sum_(i < n.+1) e (nth 0 ct i) (nth 0 (t0 *: g2 :: [seq x *: g2 | x <- t]) i) == e (nth 0 ct n.+1) g2) <-> tagged s t0 t ct.
  have -> : \sum_(i < n.+1) e (nth 0 ct i) (nth 0 (t0 *: g2 :: [seq x *: g2 | x <- t]) i) = e (\sum_(i < n.+1) nth 0 (t0 :: t) i *: nth 0 ct i) g2.
    rewrite (e_suml be); apply: eq_bigr => i _; rewrite -[_ :: map _ _]/(map (fun x => x *: g2) (t0 :: t)) (nth_map 0) ?(e_scaler be, e_scalel be) //=.
    by rewrite st.
  split=> [/eqP h|->]; last exact: eqxx.
  apply/eqP; rewrite -subr_eq0; apply/eqP; apply: (nd _ g2) => //.
  by rewrite (e_addl be) (eNl be) h subrr.
set S := 1 + \sum_(i < n) nth 0 s i.
have hs : \sum_(i < n.+1) nth 0 ct i = S *: nth 0 ct 0 + \sum_(i < n) nth 0 m i *: nth 0 (vk_gamma_ABC_rest vk) i.
  rewrite big_ord_recl scalerDl scale1r -addrA; congr (_ + _); rewrite scaler_suml -big_split; apply: eq_bigr => i _.
  by rewrite -(dec i) // [RHS]/= addrC subrK.
have hi : \sum_(i < n + size unencrypted) nth 0 (m ++ unencrypted) i *: nth 0 (vk_gamma_ABC_rest vk) i =
  \sum_(i < n) nth 0 m i *: nth 0 (vk_gamma_ABC_rest vk) i + \sum_(j < size unencrypted) nth 0 unencrypted j *: nth 0 (vk_gamma_ABC_rest vk) (n + j).
  rewrite big_split_ord /=; congr (_ + _); apply: eq_bigr => i _; rewrite nth_cat sm; first by rewrite ltn_ord.
  by rewrite ltnNge leq_addr addKn.
have -> : e (pr_C pr + (gamma / delta * S) *: nth 0 ct 0) (vk_delta_g2 vk) = e (pr_C pr) (vk_delta_g2 vk) + e (S *: nth 0 ct 0) (vk_gamma_g2 vk).
  rewrite (e_addl be) vg vd !(e_scaler be, e_scalel be); congr (_ + _); rewrite !scalerA; congr (_ *: _).
  by rewrite mulrA [delta * _]mulrC mulfVK // mulrC.
rewrite hs hi; set I1 := \sum_(i < n) _; set I2 := \sum_(j < _) _.
have -> : vk_gamma_ABC_first vk + (S *: nth 0 ct 0 + I1) + I2 = (vk_gamma_ABC_first vk + (I1 + I2)) + S *: nth 0 ct 0.
  by rewrite (AC (1*2*1) (1*(3*4)*2)).
rewrite [e (_ + S *: _) _](e_addl be) -!addrA [e (S *: _) _ + _]addrC.
by split=> [/andP[/h1 ? /eqP ?]|[/h2 -> ->]]; rewrite ?eqxx.
Qed.

(** ... so, for given other elements, exactly one last element of a ciphertext can be accepted. *)
Corollary C57_tag vk ct ct' m unencrypted pr pr' : nondegenerate_left e -> g2 != 0 -> delta != 0 ->
  vk_gamma_g2 vk = gamma *: g2 -> vk_delta_g2 vk = delta *: g2 ->
  size t = n -> size ct = n.+2 -> size ct' = n.+2 -> size m = n -> (n + size unencrypted)%N = size (vk_gamma_ABC_rest vk) -> (2 <= size unencrypted)%N ->
  decrypts_to (vk_gamma_ABC_rest vk) s ct m -> take n.+1 ct' = take n.+1 ct ->
  enc_verify e g2 ct vk (pubkey vk) unencrypted pr = Some true -> enc_verify e g2 ct' vk (pubkey vk) unencrypted pr' = Some true ->
  ct' = ct.
Proof.
move=> nd g2n dn vg vd st sc sc' sm si su dec et a1 a2.
have en i : (i < n.+1)%N -> nth 0 ct' i = nth 0 ct i by move=> hi; rewrite -(nth_take 0 hi) et nth_take.
have [b [eb hb]] := C57_exact pr nd g2n dn vg vd st sc sm si su dec.
have dec' : decrypts_to (vk_gamma_ABC_rest vk) s ct' m by move=> i hi; rewrite !en //; exact: dec.
have [b' [eb' hb']] := C57_exact pr' nd g2n dn vg vd st sc' sm si su dec'.
move: a1 a2; rewrite eb eb' => -[/hb[t1 _]] [/hb'[t2 _]].
apply: (@eq_from_nth _ 0); first by rewrite sc sc'.
move=> i; rewrite sc' ltnS leq_eqVlt => /orP[/eqP ->|/en //]; rewrite t1 t2.
by apply: eq_bigr => j _; rewrite en.
Qed.

(** A proof belongs to the encrypted inputs: if it is accepted with two ciphertexts of the same randomness, they encrypt the same
    inputs, or the key is degenerate (a combination of its elements for the inputs vanishes). *)
Theorem C57_binds vk ct ct' m m' unencrypted pr : nondegenerate_left e -> g2 != 0 -> delta != 0 -> gamma != 0 ->
  vk_gamma_g2 vk = gamma *: g2 -> vk_delta_g2 vk = delta *: g2 ->
  size t = n -> size ct = n.+2 -> size ct' = n.+2 -> size m = n -> size m' = n ->
  (n + size unencrypted)%N = size (vk_gamma_ABC_rest vk) -> (2 <= size unencrypted)%N ->
  decrypts_to (vk_gamma_ABC_rest vk) s ct m -> decrypts_to (vk_gamma_ABC_rest vk) s ct' m' -> nth 0 ct' 0 = nth 0 ct 0 ->
  enc_verify e g2 ct vk (pubkey vk) unencrypted pr = Some true -> enc_verify e g2 ct' vk (pubkey vk) unencrypted pr = Some true ->
  \sum_(i < n) (nth 0 m i - nth 0 m' i) *: nth 0 (vk_gamma_ABC_rest vk) i = 0.
Proof.
move=> nd g2n dn gan vg vd st sc sc' sm sm' si su dec dec' e0 a1 a2.
have key c q : size c = n.+2 -> size q = n -> decrypts_to (vk_gamma_ABC_rest vk) s c q -> enc_verify e g2 c vk (pubkey vk) unencrypted pr = Some true ->
  g16_equation e vk (q ++ unencrypted) (stripped c pr).
  move=> hc hq hd ha; have [b [eb hb]] := C57_exact pr nd g2n dn vg vd st hc hq si su hd.
  move: ha; rewrite eb => -[/hb[_ hv]].
  have sq : size (q ++ unencrypted) = size (vk_gamma_ABC_rest vk) by rewrite size_cat hq.
  by have [_ [b' [eb' hb']]] := @C10_strong_exact _ _ _ _ e vk _ (stripped c pr) sq; move: hv; rewrite eb' => -[/hb'].
have := key _ _ sc sm dec a1; have := key _ _ sc' sm' dec' a2; rewrite /g16_equation /stripped e0 /= -si => h1.
rewrite h1 => /addIr/addrI/eqP; rewrite -subr_eq0 -(eNl be) -(e_addl be) vg => /eqP/(nd _ _ _)h2.
have := h2 _; rewrite opprD addrACA subrr add0r -sumrB.
move=> h3; apply/eqP; rewrite -oppr_eq0; apply/eqP.
have gg : gamma *: g2 != 0 by rewrite scaler_eq0 negb_or gan.
have := h3 gg; rewrite big_split_ord /= [X in _ + X]big1 ?addr0; last first.
  by move=> i _; rewrite !nth_cat sm sm' ltnNge leq_addr /= subrr.
by move=> hz; apply: etrans hz; rewrite -sumrN; apply: eq_bigr => i _; rewrite !nth_cat sm sm' ltn_ord -scalerBl -scaleNr opprB.
Qed.

(** An honest encryption decrypts to its messages and is tagged. *)
Lemma C57_encryption abc r m : size t = n -> decrypts_to abc s (encryption g1 delta abc s t0 t r m) m /\ tagged s t0 t (encryption g1 delta abc s t0 t r m).
Proof.
move=> st; split=> [i hi|].
  by rewrite /encryption /= nth_cat size_map size_iota hi (nth_map 0%N) ?size_iota // nth_iota // add0n scalerA [_ * (r * _)]mulrCA mulrA addrC addKr.
rewrite /tagged /encryption big_ord_recl /= nth_cat size_map size_iota ltnn subnn /=.
rewrite [X in _ = _ + X](eq_bigr (fun i : 'I_n => (r * delta * (nth 0 t i * nth 0 s i)) *: g1 + (nth 0 t i * nth 0 m i) *: nth 0 abc i)).
  rewrite big_split /= addrA; congr (_ + _); rewrite scalerA -scaler_suml -scalerDl; congr (_ *: _).
  by rewrite -mulr_sumr mulrDr [t0 * _]mulrC.
move=> i _; rewrite nth_cat size_map size_iota ltn_ord (nth_map 0%N) ?size_iota // nth_iota // add0n scalerDr !scalerA.
by congr (_ *: _ + _); apply: tag_ring.
Qed.

(** Completeness: with the keys of the generator, for every satisfying assignment whose first inputs are encrypted (all but two, or
    fewer), whatever the randomness of the encryption and of the proof, the proof is accepted. *)
Theorem C57_complete (cs : r1cs F) (dom : seq F) (gen tau alpha beta : F) (chunks : nat) : nondegenerate_left e -> g2 != 0 ->
  r1cs_wf cs -> uniq dom -> (r_num_constraints cs + r_num_inputs cs + 1 <= size dom)%N ->
  gen != 0 -> (forall x, x \in dom -> gen * x \notin dom) -> gamma != 0 -> delta != 0 -> size t = n ->
  exists pk vk, g16_generator e dom cs tau alpha beta gamma delta g1 g2 chunks = Some (pk, vk) /\
  forall m unencrypted auxiliary r r0 s0, size m = n -> (2 <= size unencrypted)%N ->
    size (m ++ unencrypted) = r_num_inputs cs -> (size (m ++ unencrypted) + size auxiliary)%N = r_num_variables cs ->
    r_is_satisfied cs (m ++ unencrypted) auxiliary = Some true ->
    exists2 pr, enc_prover dom gen pk (pubkey vk) (m ++ unencrypted) auxiliary r r0 s0 = Some pr &
      enc_verify e g2 (encryption g1 delta (vk_gamma_ABC_rest vk) s t0 t r m) vk (pubkey vk) unencrypted pr = Some true.
Proof.
move=> nd g2n wf ud sd gn gd gan dn st.
have [pk [vk [eg hall]]] := C08_complete be tau alpha beta g1 g2 chunks wf ud sd gn gd gan dn.
exists pk, vk; split=> // m un aux r r0 s0 sm su si sv sat.
have [pr ep ev] := hall _ _ r0 s0 si sv sat.
have [vg vd] := generator_vk eg.
have sabc : (n + size un)%N = size (vk_gamma_ABC_rest vk).
  move: ev; rewrite /g16_verify_strong /g16_verify_strong_online /=; case: eqP => // -> _; by rewrite size_cat sm.
have [dec tag] := C57_encryption (vk_gamma_ABC_rest vk) r m st.
rewrite /enc_prover ep /=; eexists; first by reflexivity.
set ct := encryption _ _ _ _ _ _ _ _; set pr' := G16Proof _ _ _.
have sc : size ct = n.+2 by rewrite /ct /encryption /= size_cat size_map size_iota addn1.
have [b [-> hb]] := C57_exact pr' nd g2n dn vg vd st sc sm sabc su dec.
congr Some; apply/hb; split=> //; rewrite -ev; congr (g16_verify_strong _ _ _ _).
rewrite /stripped /pr' /=; case: (pr) => A B C /=; congr G16Proof.
rewrite addrAC !scalerA -scalerDl.
have -> : r * (- (gamma * (1 + \sum_(i < n) nth 0 s i))) + gamma / delta * (1 + \sum_(i < n) nth 0 s i) * (r * delta) = 0.
  by apply: strip_field.
by rewrite scale0r add0r.
Qed.
End C57.

(** Finding: the assertion on the number of encrypted inputs is strict twice over. Where it is compiled in, verification aborts, for
    every proof, when all inputs or all but one are encrypted. *)
Theorem C57_number_refuted (F : fieldType) (G1 G2 GT : lmodType F) (e : G1 -> G2 -> GT) (g2 : G2) (vk : g16_verification_key G1 G2 GT) ct pubkey
    unencrypted pr : (0 < size (vk_gamma_ABC_rest vk))%N -> size ct = (size (vk_gamma_ABC_rest vk) - size unencrypted).+2 ->
  (size unencrypted <= 1)%N -> enc_verify e g2 ct vk pubkey unencrypted pr = None.
Proof.
move=> h0 sc su; rewrite /enc_verify sc !subSS subn0; case: ifP => // /and5P[_ h1 h2 _ _]; exfalso.
move: h1; rewrite eqn0Ngt h0 /= ltnNge => /negP; apply; rewrite leq_sub2l //.
Qed.

(** Non-vacuity: x1 + x2 + x3 = x4 * x5 over F_17 with three inputs, of which the first is encrypted; another plaintext or tag is rejected. *)
Definition C57_sys : r1cs C05_F := R1cs 3 2 [:: R1csConstraint (lc_var _ 4) (lc_var _ 5) (lc_var _ 1 ++ lc_var _ 2 ++ lc_var _ 3)].
Definition C57_dom : seq C05_F := [:: 1; 2%:R; 4%:R; 8%:R; 16%:R; 15%:R; 13%:R; 9%:R].
Definition C57_g1 : C08_V := (1 : C05_F).
Definition C57_g2 : C08_V := (3%:R : C05_F).
Definition C57_pub (abc : seq C08_V) : enc_pubkey C08_V C08_V :=
  EncPubkey [:: (4%:R * 9%:R) *: C57_g1] [:: 13%:R *: nth 0 abc 0] [:: 11%:R *: C57_g2; 13%:R *: C57_g2] (- (8%:R * (1 + 4%:R)) *: C57_g1).
Definition C57_ct (abc : seq C08_V) (m : C05_F) : seq C08_V :=
  [:: (10%:R * 9%:R) *: C57_g1; (10%:R * 4%:R * 9%:R) *: C57_g1 + m *: nth 0 abc 0;
      (10%:R * 9%:R * (11%:R + 13%:R * 4%:R)) *: C57_g1 + (13%:R * m) *: nth 0 abc 0].
Lemma C57_pubE abc : honest_pubkey C57_g1 C57_g2 8%:R 9%:R abc [:: 4%:R] 11%:R [:: 13%:R] = C57_pub abc.
Proof. by rewrite /honest_pubkey /C57_pub big_ord_recl big_ord0 addr0. Qed.
Lemma C57_ctE abc m : encryption C57_g1 9%:R abc [:: 4%:R] 11%:R [:: 13%:R] 10%:R [:: m] = C57_ct abc m.
Proof. by rewrite /encryption /C57_ct !big_ord_recl !big_ord0 !addr0. Qed.
Definition C57_run (encrypted tag : C05_F) : option bool :=
  obnd (g16_generator C08_e C57_dom C57_sys 5%:R 6%:R 7%:R 8%:R 9%:R C57_g1 C57_g2 2) (fun k =>
  let pub := C57_pub (vk_gamma_ABC_rest k.2) in
  let ct := C57_ct (vk_gamma_ABC_rest k.2) encrypted in
  obnd (enc_prover C57_dom 3%:R k.1 pub [:: 1; 2%:R; 3%:R] [:: 2%:R; 3%:R] 10%:R 12%:R 14%:R) (fun pr =>
  enc_verify C08_e C57_g2 (rcons (take 2 ct) (last 0 ct + tag *: C57_g1)) k.2 pub [:: 2%:R; 3%:R] pr)).
Example C57_witness : [/\ C57_run 1 0 = Some true, C57_run 5%:R 0 = Some false & C57_run 1 1 = Some false].
Proof. by split; vm_compute. Qed.
Example C57_hypotheses : [/\ bilinear C08_e, nondegenerate_left C08_e, r1cs_wf C57_sys, uniq C57_dom /\ (forall x, x \in C57_dom -> (3%:R : C05_F) * x \notin C57_dom) &
  r_is_satisfied C57_sys [:: 1; 2%:R; 3%:R] [:: 2%:R; 3%:R] = Some true].
Proof.
split; [exact: C08_e_bilinear| | |by split; [vm_compute|apply/allP; vm_compute]|by vm_compute].
  by move=> x y yn /eqP; rewrite mulf_eq0 (negPf yn) orbF => /eqP.
by move=> k; rewrite inE => /eqP ->; split=> t; rewrite !inE; do ?[case/orP]; move/eqP ->.
Qed.

Print Assumptions C57_exact.
Print Assumptions C57_tag.
Print Assumptions C57_binds.
Print Assumptions C57_complete.
Print Assumptions C57_number_refuted.
