(** C45: the powers-of-tau ceremony. *)
From mathcomp Require Import all_ssreflect all_algebra.
From Verif.Model Require Import Base Domain KnowledgeCommitment PowersOfTau.
From Verif.Spec Require Import GroupSpec CeremonySpec.
From Verif.Proofs Require Import NatTac FieldTac DomainProofs PermProofs KcProofs PackingProofs CeremonyProofs.
From Verif.Props Require Import C05_R1csToQap C08_Groth16Complete.
Set Implicit Arguments.
Unset Strict Implicit.
Unset Printing Implicit Defensive.
Import GRing.Theory.
Local Open Scope ring_scope.

Section C45.
Variables (F : fieldType) (G1 G2 GT : lmodType F) (e : G1 -> G2 -> GT) (g1 : G1) (g2 : G2).
(** the hash, the seeded generator, the serialisation of points and the transcript of an accumulator *)
Variables (bf : seq nat -> nat) (rg : nat -> G2) (ser : G1 -> seq nat) (tt : tau_accumulator G1 G2 -> seq nat).
Notation verify := (tau_verify_eval e g1 g2 bf rg ser tt).
Notation prove := (tau_proof_eval bf rg ser tt).
Notation ceremony := (tau_ceremony g1 g2).
Notation key := (tau_private_key F).

(** After any sequence of contributions the accumulator holds the consecutive powers of the product of the taus, times
    the products of the alphas and betas. *)
Theorem C45_accumulator (n : nat) (keys : seq key) : (0 < n)%N ->
  exists2 a, ceremony n keys = Some a &
  accumulator_for g1 g2 n (\prod_(k <- keys) tk_tau k) (\prod_(k <- keys) tk_alpha k) (\prod_(k <- keys) tk_beta k) a.
Proof.
move=> n0; rewrite ceremonyE //; eexists; first by [].
exact/accumulator_forP.
Qed.

(** Every contribution of every history verifies, whatever the prover and the verifier draw. *)
Theorem C45_contributions_verify (n : nat) (keys : seq key) (k : key) (s1 s2 s3 : G1) (rnd : nat -> F) before after :
  bilinear e -> (2 <= n)%N ->
  ceremony n keys = Some before -> ceremony n (rcons keys k) = Some after ->
  verify rnd (prove k before s1 s2 s3) before after = Some true.
Proof.
move=> be n2; have n0 : (0 < n)%N by slia.
rewrite !ceremonyE // => -[<-] [<-]; rewrite -!cats1 !big_cat !big_seq1.
exact: verify_honest.
Qed.

(** Soundness of one contribution. The groups are generated by their [one()] and the pairing of these is not
    trivial; no seed gives the zero of G2. If the accumulator before holds powers for some secrets with beta not
    zero, then the accumulator after either multiplies the secrets by some tau', alpha', beta' or is accepted with
    probability at most 1 / |F| over the draws of the verifier. *)
Theorem C45_sound (n : nat) (t al b : F) before after p :
  bilinear e -> e g1 g2 != 0 -> generates g1 -> generates g2 -> (forall s, rg s != 0) ->
  (2 <= n)%N -> b != 0 -> accumulator_for g1 g2 n t al b before ->
  size (ta_tau_g1 after) = (n.*2 - 1)%N -> size (ta_tau_g2 after) = n ->
  size (ta_alpha_g1 after) = n -> size (ta_beta_g1 after) = n ->
  (exists t' al' b', accumulator_for g1 g2 n (t * t') (al * al') (b * b') after) \/
  rarely_accepts (fun rnd => verify rnd p before after).
Proof.
move=> be nd gen1 gen2 seeds n2 b0 /accumulator_forP-> s1 s2 sa sb.
have [[t' [al' [b' ->]]]|h] := verify_sound be bf ser tt nd gen1 gen2 seeds t al p n2 b0 s1 s2 sa sb; last by right.
by left; exists t', al', b'; apply/accumulator_forP.
Qed.

(** A transcript of a ceremony: public keys and the accumulators they claim. *)
Fixpoint transcript_ok (n : nat) (before : tau_accumulator G1 G2) (steps : seq (tau_public_key G1 G2 * tau_accumulator G1 G2)) : Prop :=
  if steps is (p, after) :: steps' then
    [/\ [/\ size (ta_tau_g1 after) = (n.*2 - 1)%N, size (ta_tau_g2 after) = n, size (ta_alpha_g1 after) = n
          & size (ta_beta_g1 after) = n],
        ta_beta_g2 after != 0, ~ rarely_accepts (fun rnd => verify rnd p before after) & transcript_ok n after steps']
  else True.

(** Soundness of a whole ceremony: if every step from the initial accumulator is accepted with more than that
    probability and no beta in G2 is zero, the last accumulator holds the powers of some secrets. *)
Theorem C45_history_sound (n : nat) steps :
  bilinear e -> e g1 g2 != 0 -> generates g1 -> generates g2 -> (forall s, rg s != 0) -> (2 <= n)%N ->
  transcript_ok n (tau_accumulator_init g1 g2 n) steps ->
  exists t al b, accumulator_for g1 g2 n t al b (last (tau_accumulator_init g1 g2 n) [seq s.2 | s <- steps]).
Proof.
move=> be nd gen1 gen2 seeds n2 ok.
have : exists t al b, b != 0 /\ accumulator_for g1 g2 n t al b (tau_accumulator_init g1 g2 n).
  by exists 1, 1, 1; rewrite oner_neq0; split=> //; apply/accumulator_forP/tau_initE.
elim: steps (tau_accumulator_init g1 g2 n) ok => [|[p after] steps IH] before /= ok [t [al [b [b0 hb]]]].
  by exists t, al, b.
case: ok => -[s1 s2 s3 s4] b2 acc ok.
apply: IH ok _.
have [[t' [al' [b' h]]]|//] := C45_sound p be nd gen1 gen2 seeds n2 b0 hb s1 s2 s3 s4.
exists (t * t'), (al * al'), (b * b'); split=> //.
case: h => _ _ _ _ h5; move: b2; rewrite h5 scaler_eq0 => /norP[]; by [].
Qed.

(** The result of the ceremony: the Lagrange polynomials of the domain and the multiples of the vanishing polynomial,
    evaluated at the product of the taus in the exponent. *)
Theorem C45_result (n : nat) (keys : seq key) (dom : seq F) a :
  (0 < size dom)%N -> (size dom <= n)%N -> ceremony n keys = Some a ->
  let t := \prod_(k <- keys) tk_tau k in
  let al := \prod_(k <- keys) tk_alpha k in
  let b := \prod_(k <- keys) tk_beta k in
  let L i := zeval (others dom i) t / zeval (others dom i) (nth 0 dom i) in
  exists2 r, tau_from_accumulator n dom (size dom) a = Some r &
  [/\ [/\ tr_alpha_g1 r = al *: g1, tr_beta_g1 r = b *: g1 & tr_beta_g2 r = b *: g2],
      [/\ size (tr_coeffs_g1 r) = size dom, size (tr_coeffs_g2 r) = size dom, size (tr_alpha_coeffs_g1 r) = size dom,
          size (tr_beta_coeffs_g1 r) = size dom & size (tr_h r) = (size dom - 1)%N],
      forall i, (i < size dom)%N -> nth 0 (tr_coeffs_g1 r) i = L i *: g1 /\ nth 0 (tr_coeffs_g2 r) i = L i *: g2,
      forall i, (i < size dom)%N ->
        nth 0 (tr_alpha_coeffs_g1 r) i = (al * L i) *: g1 /\ nth 0 (tr_beta_coeffs_g1 r) i = (b * L i) *: g1
    & forall i, (i < size dom - 1)%N -> nth 0 (tr_h r) i = (t ^+ i * \prod_(x <- dom) (t - x)) *: g1].
Proof.
move=> d0 dn; have n0 : (0 < n)%N by apply: leq_trans dn.
rewrite ceremonyE // => -[<-] t al b L.
exists (tau_result_for g1 g2 dom t al b); first by rewrite from_accumulatorE.
split=> //=; first by split; rewrite size_map size_iota.
- by move=> i hi; rewrite !(nth_map 0%N) ?size_iota // nth_iota.
- by move=> i hi; rewrite !(nth_map 0%N) ?size_iota // nth_iota.
move=> i hi; rewrite (nth_map 0%N) ?size_iota // nth_iota //; congr ((_ * _) *: _).
by rewrite zevalE /zpoly horner_prod; apply: eq_bigr => x _; rewrite !hornerE.
Qed.

(** Finding: the points of a proof of knowledge are not part of what is hashed (proof_of_knowledge.hpp:89-96), so
    anyone can re-randomise an accepted proof without knowing the secret. *)
Theorem C45_pok_rerandomised (c : F) (p : element_pok G1 G2) tr pers :
  bilinear e -> pok_verify e bf rg ser p tr pers ->
  pok_verify e bf rg ser (ElementPok (c *: pok_g1_s p) (c *: pok_g1_s_x p) (pok_g2_s_x p)) tr pers.
Proof.
by move=> be; rewrite /pok_verify /pok_verify_with /compute_g2_s /= !(e_scalel be) => /eqP->.
Qed.

(** Finding: only the first byte of the hash seeds the generator, so a proof accepted for one transcript is accepted
    for every transcript whose hash starts with the same byte. *)
Theorem C45_pok_replayed (p : element_pok G1 G2) tr tr' pers pers' :
  bf (pers :: tr) = bf (pers' :: tr') ->
  pok_verify e bf rg ser p tr pers -> pok_verify e bf rg ser p tr' pers'.
Proof. by rewrite /pok_verify /compute_g2_s => ->. Qed.

(** Finding: a contribution with tau = 0 is accepted, and every later accumulator has lost all earlier contributions. *)
Theorem C45_zero_contribution (n : nat) (keys later : seq key) (al b : F) (s1 s2 s3 : G1) (rnd : nat -> F) before after last :
  bilinear e -> (2 <= n)%N ->
  ceremony n keys = Some before -> ceremony n (rcons keys (TauPrivateKey 0 al b)) = Some after ->
  ceremony n (keys ++ TauPrivateKey 0 al b :: later) = Some last ->
  verify rnd (prove (TauPrivateKey 0 al b) before s1 s2 s3) before after = Some true /\
  forall i, (0 < i < n.*2 - 1)%N -> nth 0 (ta_tau_g1 last) i = 0.
Proof.
move=> be n2 h1 h2 h3; split; first exact: C45_contributions_verify h1 h2.
have n0 : (0 < n)%N by slia.
move=> i /andP[i0 hi]; move: h3; rewrite ceremonyE // => -[<-] /=.
by rewrite nth_mkseq // big_cat big_cons /= mul0r mulr0 expr0n gtn_eqF //= mulr0 scale0r.
Qed.
End C45.

(** Non-vacuity over F_17, groups = the field: an honest step is accepted, a wrong accumulator is rejected. *)
Definition C45_pt (i : nat) : C08_V := (i%:R : C05_F).
Definition C45_bf (s : seq nat) : nat := (sumn s %% 256)%N.
Definition C45_rg (s : nat) : C08_V := ((s %% 16).+1%:R : C05_F).
Definition C45_ser (x : C08_V) : seq nat := [::].
Definition C45_tt (a : tau_accumulator C08_V C08_V) : seq nat := [:: size (ta_tau_g1 a)].
Definition C45_keys : seq (tau_private_key C05_F) :=
  [:: TauPrivateKey 3%:R 5%:R 7%:R; TauPrivateKey 2%:R 4%:R 11%:R].
Definition C45_key : tau_private_key C05_F := TauPrivateKey 5%:R 9%:R 6%:R.
Definition C45_run (tamper : tau_accumulator C08_V C08_V -> tau_accumulator C08_V C08_V) : option bool :=
  obnd (tau_ceremony (C45_pt 1) (C45_pt 3) 3 C45_keys) (fun before =>
  obnd (tau_transform 3 before C45_key) (fun after =>
  tau_verify_eval C08_e (C45_pt 1) (C45_pt 3) C45_bf C45_rg C45_ser C45_tt (fun i => (i.+2)%:R)
    (tau_proof_eval C45_bf C45_rg C45_ser C45_tt C45_key before (C45_pt 2) (C45_pt 3) (C45_pt 4)) before (tamper after))).
Example C45_witness : C45_run id = Some true /\
  C45_run (fun a => TauAccumulator (ta_tau_g1 a) (ta_tau_g2 a) (rev (ta_alpha_g1 a)) (ta_beta_g1 a) (ta_beta_g2 a)) = Some false.
Proof. by split; vm_compute. Qed.
Example C45_witness_hypotheses : [/\ bilinear C08_e, C08_e (C45_pt 1) (C45_pt 3) != 0,
  generates (C45_pt 1), generates (C45_pt 3) & forall s, C45_rg s != 0].
Proof.
split; [exact: C08_e_bilinear|by []| | |].
- by move=> x; exists (x : C05_F); rewrite /GRing.scale /= mulr1.
- move=> x; exists ((x : C05_F) / 3%:R); rewrite /GRing.scale /= divfK //.
move=> s; rewrite /C45_rg; have : (s %% 16 < 16)%N by rewrite ltn_mod.
have h : all (fun i : nat => (i.+1%:R : C05_F) != 0) (iota 0 16) by vm_decide.
by move=> hs; apply: (allP h); rewrite mem_iota.
Qed.

(** Finding: once a beta of zero has been contributed (it is accepted), the verifier no longer checks beta in G2: for
    every draw it accepts an accumulator that belongs to no secrets. *)
Definition C45_zero_before : tau_accumulator C08_V C08_V :=
  TauAccumulator [:: C45_pt 1; C45_pt 1; C45_pt 1] [:: C45_pt 1; C45_pt 1] [:: C45_pt 1; C45_pt 1] [:: C45_pt 0; C45_pt 0] (C45_pt 0).
Definition C45_zero_after : tau_accumulator C08_V C08_V :=
  TauAccumulator [:: C45_pt 1; C45_pt 1; C45_pt 1] [:: C45_pt 1; C45_pt 1] [:: C45_pt 1; C45_pt 1] [:: C45_pt 0; C45_pt 0] (C45_pt 1).
Theorem C45_zero_beta_refuted :
  accumulator_for (C45_pt 1) (C45_pt 1) 2 1 1 0 C45_zero_before /\
  (forall t al b, ~ accumulator_for (C45_pt 1) (C45_pt 1) 2 t al b C45_zero_after) /\
  forall bf rg ser tt rnd, exists p,
    tau_verify_eval C08_e (C45_pt 1) (C45_pt 1) bf rg ser tt rnd p C45_zero_before C45_zero_after = Some true.
Proof.
split.
  split; [| | | |by apply/eqP; vm_compute].
  - by split=> // -[|[|[|i]]] //= _; apply/eqP; vm_compute.
  - by split=> // -[|[|i]] //= _; apply/eqP; vm_compute.
  - by split=> // -[|[|i]] //= _; apply/eqP; vm_compute.
  - by split=> // -[|[|i]] //= _; apply/eqP; vm_compute.
split=> [t al b [_ _ _ [_ /(_ 0%N isT) h] h5]|bf rg ser tt rnd].
  have ne : C45_pt 1 != C45_pt 0 by vm_compute.
  by move: h h5; rewrite /= expr0 mulr1 => <- h5; move: ne; rewrite h5 eqxx.
exists (TauPublicKey (ElementPok 0 0 (rg (bf (0%N :: tt C45_zero_before)))) (ElementPok 0 0 (rg (bf (1%N :: tt C45_zero_before))))
  (ElementPok 0 0 (rg (bf (2%N :: tt C45_zero_before))))).
rewrite /tau_verify_eval /compute_g2_s /pok_verify_with /is_same_ratio /C08_e /=.
by rewrite !eqxx.
Qed.

Print Assumptions C45_accumulator.
Print Assumptions C45_contributions_verify.
Print Assumptions C45_sound.
Print Assumptions C45_history_sound.
Print Assumptions C45_result.
Print Assumptions C45_pok_rerandomised.
Print Assumptions C45_pok_replayed.
Print Assumptions C45_zero_contribution.
Print Assumptions C45_zero_beta_refuted.
