(** C46: the second phase of the Groth16 ceremony. *)
From mathcomp Require Import all_ssreflect all_algebra.
From Verif.Model Require Import Base LinearCombination ConstraintSystems Domain ArithmeticPrograms KnowledgeCommitment
  Groth16 PowersOfTau Groth16Mpc.
From Verif.Spec Require Import LinearSpec GroupSpec CeremonySpec MpcSpec.
From Verif.Proofs Require Import NatTac FieldTac LinearProofs DomainProofs ProgramProofs QapProofs KcProofs PermProofs
  PackingProofs Groth16Proofs CeremonyProofs MpcProofs.
From Verif.Props Require Import C02_R1csSemantics C05_R1csToQap C08_Groth16Complete C45_PowersOfTau.
Set Implicit Arguments.
Unset Strict Implicit.
Unset Printing Implicit Defensive.
Import GRing.Theory.
Local Open Scope ring_scope.

Section C46.
Variables (F : fieldType) (G1 G2 GT : lmodType F) (e : G1 -> G2 -> GT) (g1 : G1) (g2 : G2).
(** the hash, the seeded generator, the serialisation of points and the transcript of a contribution *)
Variables (bf : seq nat -> nat) (rg : nat -> G2) (ser : G1 -> seq nat)
  (mt : r1cs F -> option (mpc_public_key G1 G2) -> seq nat).
Notation initial := (mpc_initial_keypair e g1 g2).
Notation phase2 := (mpc_ceremony g1 bf rg ser mt).
Notation verify := (mpc_verify_eval e g1 g2 bf rg ser mt).
Notation generator := (g16_generator e).

(** A system, a domain for its QAP, and the result of the first phase for it. *)
Variables (cs : r1cs F) (dom : seq F) (n : nat) (keys : seq (tau_private_key F)) (a : tau_accumulator G1 G2)
  (r : tau_result G1 G2).
Definition phase1 : Prop :=
  [/\ r1cs_wf cs, (r_num_constraints cs + r_num_inputs cs + 1 <= size dom <= n)%N,
      tau_ceremony g1 g2 n keys = Some a & tau_from_accumulator n dom (size dom) a = Some r].
(** the secrets of the first phase *)
Definition tau_ := \prod_(k <- keys) tk_tau k.
Definition alpha_ := \prod_(k <- keys) tk_alpha k.
Definition beta_ := \prod_(k <- keys) tk_beta k.

Hypothesis be : bilinear e.
Hypothesis p1 : phase1.

Let wf : r1cs_wf cs. Proof. by case: p1. Qed.
Let ldom : (r_num_constraints cs + r_num_inputs cs + 1 <= size dom)%N. Proof. by case: p1 => _ /andP[]. Qed.

Let r_for : r = tau_result_for g1 g2 dom tau_ alpha_ beta_.
Proof.
case: p1 => _ /andP[h1 h2] ea er.
have m0 : (0 < size dom)%N by apply: leq_trans h1; rewrite addn1.
move: ea; rewrite ceremonyE ?(leq_trans m0) // => -[ea].
by move: er; rewrite -ea from_accumulatorE // => -[].
Qed.

Let initial_for := initial_keyE e g1 g2 wf ldom tau_ alpha_ beta_.

(** After any sequence of contributions the key pair is the one key generation makes for the secrets of the first phase,
    gamma = 1 and delta = the product of the contributions. *)
Theorem C46_key (xs : seq (F * G1)) (chunks : nat) :
  exists2 k0, initial dom cs r = Some k0 &
  exists2 k, generator dom cs tau_ alpha_ beta_ 1 (\prod_(x <- xs) x.1) g1 g2 chunks = Some k &
  same_key (phase2 k0 xs).1 k.
Proof.
have [q [eq [sA sB sC sh ei]]] := initial_for; rewrite r_for; exists (mpc_key e g1 g2 cs dom tau_ alpha_ beta_ q 1) => //.
have [k ek [hk _]] := key_generator e g1 g2 ldom alpha_ beta_ (\prod_(x <- xs) x.1) chunks eq sA sB sC sh.
exists k => //; have [pks [-> _ _ _]] := ceremony_state g1 g2 be dom tau_ alpha_ beta_ bf rg ser mt q xs (erefl (swap_AB_if_beneficial cs)).
exact: hk.
Qed.

(** It verifies, whatever the verifier draws, if no contribution is zero. *)
Theorem C46_verifies (xs : seq (F * G1)) k0 (rnd : nat -> F) :
  all (fun x => x.1 != 0) xs -> initial dom cs r = Some k0 ->
  verify rnd dom (phase2 k0 xs).1 (phase2 k0 xs).2 cs r = Some true.
Proof.
move=> hx; have [q [eq [sA sB sC sh ei]]] := initial_for; move: (ei); rewrite r_for => -> [<-].
have [pks [-> hc _ _]] := ceremony_state g1 g2 be dom tau_ alpha_ beta_ bf rg ser mt q xs (erefl (swap_AB_if_beneficial cs)).
apply: verify_honest_key => //; elim: xs hx {hc} => [|x xs IH] /=; first by rewrite big_nil oner_neq0.
by move=> /andP[h1 h2]; rewrite big_cons mulf_neq0 // IH.
Qed.

(** Proofs made with it are accepted by the strong verifier, for every satisfying assignment and all randomness. *)
Theorem C46_proofs_accepted (xs : seq (F * G1)) k0 (gen : F) primary auxiliary rr ss :
  all (fun x => x.1 != 0) xs -> initial dom cs r = Some k0 ->
  uniq dom -> gen != 0 -> (forall x, x \in dom -> gen * x \notin dom) ->
  size primary = r_num_inputs cs -> (size primary + size auxiliary)%N = r_num_variables cs ->
  r_is_satisfied cs primary auxiliary = Some true ->
  exists2 pr, g16_prover dom gen (phase2 k0 xs).1.1 primary auxiliary rr ss = Some pr &
    g16_verify_strong e (phase2 k0 xs).1.2 primary pr = Some true.
Proof.
move=> hx e0 ud g0 hg sp sn sat; have [q [eq [sA sB sC sh ei]]] := initial_for.
move: (ei) e0; rewrite r_for => -> [<-].
have [pks [-> hc _ _]] := ceremony_state g1 g2 be dom tau_ alpha_ beta_ bf rg ser mt q xs (erefl (swap_AB_if_beneficial cs)).
have D0 : \prod_(x <- xs) x.1 != 0.
  elim: xs hx {hc} => [|x xs IH] /=; first by rewrite big_nil oner_neq0.
  by move=> /andP[h1 h2]; rewrite big_cons mulf_neq0 // IH.
have [k ek [hk okk]] := key_generator e g1 g2 ldom alpha_ beta_ (\prod_(x <- xs) x.1) 1 eq sA sB sC sh.
have [pk [vk [ek' hp]]] := C08_complete be tau_ alpha_ beta_ g1 g2 1 wf ud ldom g0 hg (oner_neq0 F) D0.
move: ek'; rewrite ek => -[ek']; rewrite ek' in hk okk.
have [pr e1 e2] := hp primary auxiliary rr ss sp sn sat.
exists pr; last by have [-> _ _ _ _] := hk.
rewrite -e1; apply: (same_prover dom wf gen rr ss _ okk hk) => //; last by have [_ _ _ _ <-] := hk.
by rewrite /kc_ok /mpc_key [kv_indices _](_ : _ = iota 0 (r_num_variables cs).+1) // iota_ltn_sorted size_map sB size_iota eqxx.
Qed.

(** Soundness: no other key pair with a non-zero delta verifies, except with probability 1 / |F| over the draws of the
    verifier: the key is the Groth16 key for a delta that is the product of one scalar per public key; each public key
    proves that it used that scalar, and its delta is the product so far. *)
Theorem C46_sound k pks (chunks : nat) :
  e g1 g2 != 0 -> generates g1 -> generates g2 -> (forall s, rg s != 0) -> pk_delta_g1 k.1 != 0 ->
  (exists ds, let D := \prod_(d <- ds) d in
    [/\ D != 0, exists2 k', generator dom cs tau_ alpha_ beta_ 1 D g1 g2 chunks = Some k' & same_key k k',
        size ds = size pks &
        forall i p, vget pks i = Some p ->
          mp_delta_after p = (\prod_(d <- take i.+1 ds) d) *: g1 /\
          pok_g1_s_x (mp_pok p) = nth 0 ds i *: pok_g1_s (mp_pok p)]) \/
  rarely_accepts (fun rnd => verify rnd dom k pks cs r).
Proof.
move=> nd gen1 gen2 seeds d0; have [q [eq [sA sB sC sh ei]]] := initial_for.
rewrite -r_for in ei.
case: (key_sound be bf ser mt nd gen1 gen2 seeds pks ei d0) => [[ds [hk D0 sds hds]]|]; last by right.
left; exists ds; split=> //.
have [k' ek [hk' _]] := key_generator e g1 g2 ldom alpha_ beta_ (\prod_(d <- ds) d) chunks eq sA sB sC sh.
exists k' => //; exact: same_key_trans hk hk'.
Qed.

(** Finding: the key pair that nobody has contributed to, whose delta is 1, verifies with an empty list of public
    keys: the caller has to look at the list. *)
Theorem C46_no_contribution k0 (rnd : nat -> F) : initial dom cs r = Some k0 ->
  verify rnd dom k0 [::] cs r = Some true /\ pk_delta_g1 k0.1 = g1.
Proof.
move=> e0; have := C46_verifies (xs := [::]) rnd isT e0; split=> //.
have [q [eq [sA sB sC sh ei]]] := initial_for; move: (ei) e0; rewrite r_for => -> [<-].
by rewrite /mpc_key /= scale1r.
Qed.
End C46.

(** Non-vacuity over F_17, groups = the field: two contributions to the key of the system of C05; the key verifies, with
    one contribution left out or with a changed query it does not; a proof made with it is accepted for the right
    input. *)
Definition C46_mt (c : r1cs C05_F) (p : option (mpc_public_key C08_V C08_V)) : seq nat :=
  if p is Some _ then [:: 1%N; 2%N] else [:: 3%N].
Definition C46_phase1 : option (tau_result C08_V C08_V) :=
  obnd (tau_ceremony (C45_pt 1) (C45_pt 3) (size C05_dom) C45_keys) (fun a =>
  tau_from_accumulator (size C05_dom) C05_dom (size C05_dom) a).
Definition C46_xs : seq (C05_F * C08_V) := [:: (5%:R, C45_pt 2); (7%:R, C45_pt 9)].
Definition C46_run (tamper : g16_keypair C08_V C08_V C08_V -> g16_keypair C08_V C08_V C08_V)
    (list_of : seq (mpc_public_key C08_V C08_V) -> seq (mpc_public_key C08_V C08_V)) (input : C05_F) : option (bool * bool) :=
  obnd C46_phase1 (fun r =>
  obnd (mpc_initial_keypair C08_e (C45_pt 1) (C45_pt 3) C05_dom C05_sys r) (fun k0 =>
  let: (k, pks) := mpc_ceremony (C45_pt 1) C45_bf C45_rg C45_ser C46_mt k0 C46_xs in
  let k' := tamper k in
  obnd (mpc_verify_eval C08_e (C45_pt 1) (C45_pt 3) C45_bf C45_rg C45_ser C46_mt (fun i => (i.+2)%:R) C05_dom k'
          (list_of pks) C05_sys r) (fun v =>
  obnd (g16_prover C05_dom 3%:R k'.1 [:: 2%:R] [:: 3%:R; 6%:R] 4%:R 11%:R) (fun pr =>
  obnd (g16_verify_strong C08_e k'.2 [:: input] pr) (fun b => Some (v, b)))))).
Definition C46_tamper (k : g16_keypair C08_V C08_V C08_V) : g16_keypair C08_V C08_V C08_V :=
  let pk := k.1 in
  (G16ProvingKey (pk_alpha_g1 pk) (pk_beta_g1 pk) (pk_beta_g2 pk) (pk_delta_g1 pk) (pk_delta_g2 pk) (pk_A_query pk)
     (pk_B_query pk) (rev (pk_H_query pk)) (pk_L_query pk) (pk_constraint_system pk), k.2).
Example C46_witness :
  [/\ C46_run id id 2%:R = Some (true, true), C46_run id id 3%:R = Some (true, false),
      C46_run id (drop 1) 2%:R = Some (false, true) & omap fst (C46_run C46_tamper id 2%:R) = Some false].
Proof. by vm_compute. Qed.
Example C46_witness_hypotheses : exists a r, phase1 (C45_pt 1) (C45_pt 3) C05_sys C05_dom (size C05_dom) C45_keys a r.
Proof.
case ea : (tau_ceremony (C45_pt 1) (C45_pt 3) (size C05_dom) C45_keys) => [a|]; last first.
  by have [a e _] := C45_accumulator (C45_pt 1) (C45_pt 3) C45_keys (n := size C05_dom) isT; rewrite e in ea.
have [r er _] := C45_result (n := size C05_dom) (dom := C05_dom) isT (leqnn _) ea.
exists a, r; split=> //; first by case: C05_witness.
Qed.

Print Assumptions C46_key.
Print Assumptions C46_verifies.
Print Assumptions C46_proofs_accepted.
Print Assumptions C46_sound.
Print Assumptions C46_no_contribution.
