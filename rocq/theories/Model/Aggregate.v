(** Model of snark/systems/ppzksnark/r1cs_gg_ppzksnark/ipp2/{srs,transcript,prover,verifier,proof,verification_key}.hpp and
    commitments/polynomial/kzg_ipp2.hpp: aggregation of Groth16 proofs. Groups, pairing and random draws as in the model of
    Groth16 ([e] is the reduced pairing, GT is written additively: [one] is 0, products are sums, [pow] is scaling).
    The transcript hashes the concatenation of everything written; it is modelled as the list of the written items, and
    reading a challenge as an arbitrary function of that list ([chal]). *)
From mathcomp Require Import all_ssreflect all_algebra.
From Verif.Model Require Import Base KnowledgeCommitment Groth16 OrderedMap.
Set Implicit Arguments.
Unset Strict Implicit.
Unset Printing Implicit Defensive.
Import GRing.Theory.
Local Open Scope ring_scope.

Section Aggregate.
Variables (F : fieldType) (G1 G2 GT : lmodType F).
Variable e : G1 -> G2 -> GT.

(** transcript.hpp:58-115: what is written: domain separators, byte strings with their length, field and group elements *)
Inductive tr_item := TrTag of seq nat | TrBytes of seq nat | TrScalar of F | TrG1 of G1 | TrG2 of G2 | TrGT of GT.

(** transcript.hpp:117-148 [read_challenge] works on a copy of the hash state and returns an element different from 0 and 1;
    termination of its loop is assumed. *)
Variable chal : seq tr_item -> F.

(** prover.hpp:552-554, 341, 491: the ASCII codes of "snarkpack", "random-r", "gipa", "random-z" *)
Definition tag_snarkpack : seq nat := [:: 115; 110; 97; 114; 107; 112; 97; 99; 107]%N.
Definition tag_random_r : seq nat := [:: 114; 97; 110; 100; 111; 109; 45; 114]%N.
Definition tag_gipa : seq nat := [:: 103; 105; 112; 97]%N.
Definition tag_random_z : seq nat := [:: 114; 97; 110; 100; 111; 109; 45; 122]%N.

(** kzg_ipp2.hpp:77-88 [commitment_key] *)
Record ckey (V : lmodType F) := CKey { ck_a : seq V; ck_b : seq V }.

(** kzg_ipp2.hpp:94-96 *)
Definition ck_has_correct_len (V : lmodType F) (k : ckey V) (n : nat) : bool := (size (ck_a k) == n) && (n == size (ck_b k)).

(** kzg_ipp2.hpp:100-119 [scale]; [None]: the assertion of 107 *)
Definition ck_scale (V : lmodType F) (k : ckey V) (s : seq F) : option (ckey V) :=
  oguard ck_has_correct_len k (size s);
  Some (CKey [seq p.1 *: p.2 | p <- zip s (ck_a k)] [seq p.1 *: p.2 | p <- zip s (ck_b k)]).

(** kzg_ipp2.hpp:122-145 [split]; [None]: the assertions of 123-124 *)
Definition ck_split (V : lmodType F) (k : ckey V) (at_ : nat) : option (ckey V * ckey V) :=
  oguard size (ck_a k) == size (ck_b k);
  oguard (0 < at_ < size (ck_a k))%N;
  Some (CKey (take at_ (ck_a k)) (take at_ (ck_b k)), CKey (drop at_ (ck_a k)) (drop at_ (ck_b k))).

(** kzg_ipp2.hpp:150-170 [compress]; [None]: the assertions of 152-154 *)
Definition ck_compress (V : lmodType F) (l r : ckey V) (scale : F) : option (ckey V) :=
  oguard size (ck_a l) == size (ck_a r);
  oguard size (ck_b l) == size (ck_b r);
  oguard size (ck_a l) == size (ck_b l);
  Some (CKey [seq p.1 + scale *: p.2 | p <- zip (ck_a l) (ck_a r)] [seq p.1 + scale *: p.2 | p <- zip (ck_b l) (ck_b r)]).

(** The loop [for_each (zip a b) : t = t * pair(a_i, b_i)] of kzg_ipp2.hpp:222-252, 267-280 and prover.hpp:365-380, 586-592 *)
Definition ip (a : seq G1) (b : seq G2) : GT := foldl (fun t p => t + e p.1 p.2) 0 (zip a b).

(** kzg_ipp2.hpp:216-255 [pair]; [None]: the assertions of 218-220 *)
Definition com_pair (vkey : ckey G2) (wkey : ckey G1) (a : seq G1) (b : seq G2) : option (GT * GT) :=
  oguard ck_has_correct_len vkey (size a);
  oguard ck_has_correct_len wkey (size b);
  oguard size a == size b;
  Some (ip a (ck_a vkey) + ip (ck_a wkey) b, ip a (ck_b vkey) + ip (ck_b wkey) b).

(** kzg_ipp2.hpp:264-283 [single]; [None]: the assertion of 265 *)
Definition com_single (vkey : ckey G2) (a : seq G1) : option (GT * GT) :=
  oguard ck_has_correct_len vkey (size a);
  Some (ip a (ck_a vkey), ip a (ck_b vkey)).

(** srs.hpp:42-54 [structured_generators_scalar_power] *)
Fixpoint gen_powers (V : lmodType F) (g : V) (s : F) (n : nat) : seq V :=
  if n is n'.+1 then g :: gen_powers (s *: g) s n' else [::].

(** srs.hpp:61-96 [r1cs_gg_ppzksnark_aggregate_proving_srs] *)
Record agg_proving_srs := AggProvingSrs {
  ps_n : nat; ps_g_alpha : seq G1; ps_h_alpha : seq G2; ps_g_beta : seq G1; ps_h_beta : seq G2;
  ps_vkey : ckey G2; ps_wkey : ckey G1 }.

(** srs.hpp:102-112 [r1cs_gg_ppzksnark_aggregate_verification_srs] *)
Record agg_verification_srs := AggVerificationSrs {
  vs_n : nat; vs_g : G1; vs_h : G2; vs_g_alpha : G1; vs_g_beta : G1; vs_h_alpha : G2; vs_h_beta : G2 }.

(** srs.hpp:136-145 [r1cs_gg_ppzksnark_aggregate_srs] *)
Record agg_srs := AggSrs { as_g_alpha : seq G1; as_h_alpha : seq G2; as_g_beta : seq G1; as_h_beta : seq G2 }.

(** srs.hpp:147-154, the constructor; [g], [h] are the generators of the groups *)
Definition agg_srs_make (g : G1) (h : G2) (num_proofs : nat) (alpha beta : F) : agg_srs :=
  AggSrs (gen_powers g alpha (2 * num_proofs)) (gen_powers h alpha (2 * num_proofs))
         (gen_powers g beta (2 * num_proofs)) (gen_powers h beta (2 * num_proofs)).

(** [(n & (n - 1)) == 0] of srs.hpp:159, prover.hpp:310, 526, for n > 0: a power of two *)
Definition pow2 (n : nat) : bool := n == (2 ^ trunc_log 2 n)%N.

(** srs.hpp:158-204 [specialize]; [None]: the assertions of 159-165 *)
Definition agg_specialize (s : agg_srs) (num_proofs : nat) : option (agg_proving_srs * agg_verification_srs) :=
  let n := num_proofs in
  let tn := (2 * n)%N in
  oguard (0 < n)%N && pow2 n;
  oguard (tn <= size (as_g_alpha s))%N; oguard (tn <= size (as_h_alpha s))%N;
  oguard (tn <= size (as_g_beta s))%N; oguard (tn <= size (as_h_beta s))%N;
  let vkey := CKey (take n (as_h_alpha s)) (take n (as_h_beta s)) in
  let wkey := CKey (drop n (take tn (as_g_alpha s))) (drop n (take tn (as_g_beta s))) in
  Some (AggProvingSrs n (take tn (as_g_alpha s)) (take n (as_h_alpha s)) (take tn (as_g_beta s)) (take n (as_h_beta s)) vkey wkey,
        AggVerificationSrs n (nth 0 (as_g_alpha s) 0) (nth 0 (as_h_alpha s) 0) (nth 0 (as_g_alpha s) 1) (nth 0 (as_g_beta s) 1)
          (nth 0 (as_h_alpha s) 1) (nth 0 (as_h_beta s) 1)).

(** proof.hpp:43-77 [gipa_proof] *)
Record gipa_proof := GipaProof {
  gp_nproofs : nat;
  gp_comms_ab : seq ((GT * GT) * (GT * GT)); gp_comms_c : seq ((GT * GT) * (GT * GT));
  gp_z_ab : seq (GT * GT); gp_z_c : seq (G1 * G1);
  gp_final_a : G1; gp_final_b : G2; gp_final_c : G1; gp_final_vkey : G2 * G2; gp_final_wkey : G1 * G1 }.

(** proof.hpp:79-125 [tipp_mipp_proof] and [r1cs_gg_ppzksnark_aggregate_proof] in one record *)
Record agg_proof := AggProof {
  ap_com_ab : GT * GT; ap_com_c : GT * GT; ap_ip_ab : GT; ap_agg_c : G1;
  ap_gipa : gipa_proof; ap_vkey_opening : G2 * G2; ap_wkey_opening : G1 * G1 }.

(** prover.hpp:60-70 [structured_scalar_power] *)
Fixpoint scalar_powers_from (c s : F) (k : nat) : seq F := if k is k'.+1 then c * s :: scalar_powers_from (c * s) s k' else [::].
Definition structured_scalar_power (num : nat) (s : F) : seq F := 1 :: scalar_powers_from 1 s (num - 1).

(** prover.hpp:75-89 [compress] *)
Definition compress (V : lmodType F) (v : seq V) (split : nat) (scalar : F) : seq V :=
  [seq p.1 + scalar *: p.2 | p <- zip (take split v) (drop split v)].

(** prover.hpp:95-122 [polynomial_evaluation_product_form_from_transcript]; [None]: the first challenge of an empty list
    is read *)
Fixpoint eval_product_loop (res power_zr : F) (xs : seq F) : F :=
  if xs is x :: xs' then eval_product_loop (res * (1 + x * power_zr)) (power_zr * power_zr) xs' else res.
Definition eval_product (xs : seq F) (z r_shift : F) : option F :=
  let power_zr := z * r_shift in
  if xs is x :: xs' then Some (eval_product_loop (1 + x * power_zr) (power_zr * power_zr) xs') else None.

(** prover.hpp:136-158 [polynomial_coefficients_from_transcript] *)
Fixpoint coefficients_loop (coeffs : seq F) (power_2_r : F) (xs : seq F) : seq F :=
  if xs is x :: xs' then
    coefficients_loop (coeffs ++ [seq c * (x * power_2_r) | c <- coeffs]) (power_2_r * power_2_r) xs'
  else coeffs.
Definition coefficients_from_transcript (xs : seq F) (r_shift : F) : seq F := coefficients_loop [:: 1] r_shift xs.

(** prover.hpp:162-215 [prove_commitment_key_kzg_opening]: the quotient is the exact polynomial division of
    math::polynomial; it is shorter than [poly] and padded with zeros. [None]: the assertions of 180-181. *)
Definition prove_kzg_opening (V : lmodType F) (srs_alpha srs_beta : seq V) (poly : seq F) (eval_poly kzg_challenge : F)
    : option (V * V) :=
  oguard size poly == size srs_alpha;
  oguard size poly == size srs_beta;
  let quotient : {poly F} := (Poly poly - eval_poly%:P) %/ ('X - kzg_challenge%:P) in
  let q := mkseq (fun i => quotient`_i) (size poly) in
  Some (multiexp srs_alpha q, multiexp srs_beta q).

(** prover.hpp:217-245 [prove_commitment_v]; [condense] drops the zeros at the end. [None]: the assertion of 235 *)
Definition prove_commitment_v (srs_alpha srs_beta : seq G2) (xs : seq F) (kzg_challenge : F) : option (G2 * G2) :=
  let vkey_poly : seq F := polyseq (Poly (coefficients_from_transcript xs 1)) in
  oguard size vkey_poly != 0%N;
  olet z <- eval_product xs kzg_challenge 1;
  prove_kzg_opening srs_alpha srs_beta vkey_poly z kzg_challenge.

(** prover.hpp:247-283 [prove_commitment_w]; [None]: the assertion of 261 *)
Definition prove_commitment_w (srs_alpha srs_beta : seq G1) (xs : seq F) (r_shift kzg_challenge : F) : option (G1 * G1) :=
  let n := (size srs_beta %/ 2)%N in
  oguard (2 * n)%N == size srs_alpha;
  let fcoeffs := nseq n 0 ++ coefficients_from_transcript xs r_shift in
  olet fz <- eval_product xs kzg_challenge r_shift;
  prove_kzg_opening srs_alpha srs_beta fcoeffs (fz * kzg_challenge ^+ n) kzg_challenge.

(** prover.hpp:302-451 [gipa_tipp_mipp]: the loop of 345-441 with everything it appends to the proof; the vectors are
    returned in order of appending. [fuel] bounds the number of rounds (the length halves). [None]: an assertion. *)
Record gipa_out := GipaOut {
  go_comms_ab : seq ((GT * GT) * (GT * GT)); go_comms_c : seq ((GT * GT) * (GT * GT));
  go_z_ab : seq (GT * GT); go_z_c : seq (G1 * G1); go_challenges : seq F; go_challenges_inv : seq F;
  go_a : G1; go_b : G2; go_c : G1; go_vkey : G2 * G2; go_wkey : G1 * G1; go_tr : seq tr_item }.

Fixpoint gipa_loop (fuel : nat) (tr : seq tr_item) (m_a : seq G1) (m_b : seq G2) (m_c : seq G1) (m_r : seq F)
    (vkey : ckey G2) (wkey : ckey G1) : option gipa_out :=
  if (size m_a <= 1)%N then
    (* 443-450 *)
    oguard [&& size m_a == 1, size m_b == 1, size m_c == 1 & size m_r == 1]%N;
    oguard ck_has_correct_len vkey 1 && ck_has_correct_len wkey 1;
    Some (GipaOut [::] [::] [::] [::] [::] [::] (nth 0 m_a 0) (nth 0 m_b 0) (nth 0 m_c 0)
      (nth 0 (ck_a vkey) 0, nth 0 (ck_b vkey) 0) (nth 0 (ck_a wkey) 0, nth 0 (ck_b wkey) 0) tr)
  else if fuel is fuel'.+1 then
    let split := (size m_a %/ 2)%N in
    olet vk <- ck_split vkey split;
    olet wk <- ck_split wkey split;
    olet tab_l <- com_pair vk.1 wk.2 (drop split m_a) (take split m_b);
    olet tab_r <- com_pair vk.2 wk.1 (take split m_a) (drop split m_b);
    let zab_l := ip (drop split m_a) (take split m_b) in
    let zab_r := ip (take split m_a) (drop split m_b) in
    let zc_l := multiexp (drop split m_c) (take split m_r) in
    let zc_r := multiexp (take split m_c) (drop split m_r) in
    olet tuc_l <- com_single vk.1 (drop split m_c);
    olet tuc_r <- com_single vk.2 (take split m_c);
    let tr1 := tr ++ [:: TrGT zab_l; TrGT zab_r; TrG1 zc_l; TrG1 zc_r; TrGT tab_l.1; TrGT tab_l.2; TrGT tab_r.1; TrGT tab_r.2;
                         TrGT tuc_l.1; TrGT tuc_l.2; TrGT tuc_r.1; TrGT tuc_r.2] in
    let c_inv := chal tr1 in
    let c := c_inv^-1 in
    olet vkey1 <- ck_compress vk.1 vk.2 c_inv;
    olet wkey1 <- ck_compress wk.1 wk.2 c;
    olet o <- gipa_loop fuel' tr1 (compress m_a split c) (compress m_b split c_inv) (compress m_c split c)
                (compress (V := GRing.regular_lmodType F) m_r split c_inv) vkey1 wkey1;
    Some (GipaOut ((tab_l, tab_r) :: go_comms_ab o) ((tuc_l, tuc_r) :: go_comms_c o) ((zab_l, zab_r) :: go_z_ab o)
      ((zc_l, zc_r) :: go_z_c o) (c :: go_challenges o) (c_inv :: go_challenges_inv o) (go_a o) (go_b o) (go_c o)
      (go_vkey o) (go_wkey o) (go_tr o))
  else None.

(** prover.hpp:302-343: the assertions of 309-313, the domain separator; the challenge of 343 is not used and reading
    does not change the transcript. *)
Definition gipa_tipp_mipp (tr : seq tr_item) (a : seq G1) (b : seq G2) (c : seq G1) (vkey : ckey G2) (wkey : ckey G1)
    (r : seq F) : option gipa_out :=
  oguard [&& 1 < size a, pow2 (size a), size a == size b, size a == size r & size a == size c]%N;
  gipa_loop (size a) (rcons tr (TrTag tag_gipa)) a b c r vkey wkey.

(** prover.hpp:459-509 [prove_tipp_mipp] *)
Definition prove_tipp_mipp (srs : agg_proving_srs) (tr : seq tr_item) (a : seq G1) (b : seq G2) (c : seq G1)
    (wkey : ckey G1) (r : seq F) : option (gipa_proof * (G2 * G2) * (G1 * G1)) :=
  olet r_shift <- vget r 1;
  olet o <- gipa_tipp_mipp tr a b c (ps_vkey srs) wkey r;
  let challenges := rev (go_challenges o) in
  let challenges_inv := rev (go_challenges_inv o) in
  let r_inverse := r_shift^-1 in
  let tr1 := go_tr o ++ [:: TrTag tag_random_z; TrScalar (nth 0 challenges 0); TrG2 (go_vkey o).1; TrG2 (go_vkey o).2;
                            TrG1 (go_wkey o).1; TrG1 (go_wkey o).2] in
  let z := chal tr1 in
  olet pv <- prove_commitment_v (ps_h_alpha srs) (ps_h_beta srs) challenges_inv z;
  olet pw <- prove_commitment_w (ps_g_alpha srs) (ps_g_beta srs) challenges r_inverse z;
  Some (GipaProof (size a) (go_comms_ab o) (go_comms_c o) (go_z_ab o) (go_z_c o) (go_a o) (go_b o) (go_c o) (go_vkey o)
          (go_wkey o), pv, pw).

(** prover.hpp:512-615 [aggregate_proofs]; [None]: an assertion *)
Definition aggregate_proofs (srs : agg_proving_srs) (tr_include : seq nat) (proofs : seq (g16_proof G1 G2)) : option agg_proof :=
  let nproofs := size proofs in
  oguard (1 < nproofs)%N && pow2 nproofs;
  oguard ck_has_correct_len (ps_vkey srs) nproofs && ck_has_correct_len (ps_wkey srs) nproofs;
  let a := [seq pr_A p | p <- proofs] in
  let b := [seq pr_B p | p <- proofs] in
  let c := [seq pr_C p | p <- proofs] in
  olet com_ab <- com_pair (ps_vkey srs) (ps_wkey srs) a b;
  olet com_c <- com_single (ps_vkey srs) c;
  let tr := [:: TrTag tag_snarkpack; TrTag tag_random_r; TrGT com_ab.1; TrGT com_ab.2; TrGT com_c.1; TrGT com_c.2;
               TrBytes tr_include] in
  let r := chal tr in
  let r_vec := structured_scalar_power nproofs r in
  let r_inv := [seq x^-1 | x <- r_vec] in
  let b_r := [seq p.2 *: p.1 | p <- zip b r_vec] in
  let ip_ab := ip a b_r in
  let agg_c := multiexp c r_vec in
  let tr1 := tr ++ [:: TrGT ip_ab; TrG1 agg_c] in
  olet wkey_r_inv <- ck_scale (ps_wkey srs) r_inv;
  olet p <- prove_tipp_mipp srs tr1 a b_r c wkey_r_inv r_vec;
  (* 611 *)
  olet com' <- com_pair (ps_vkey srs) wkey_r_inv a b_r;
  oguard com_ab == com';
  Some (AggProof com_ab com_c ip_ab agg_c p.1.1 p.1.2 p.2).

(** verifier.hpp:46-82 [gipa_tuz] *)
Record gipa_tuz := GipaTuz { tz_tab : GT; tz_uab : GT; tz_zab : GT; tz_tc : GT; tz_uc : GT; tz_zc : G1 }.
Definition tuz_merge (x y : gipa_tuz) : gipa_tuz :=
  GipaTuz (tz_tab x + tz_tab y) (tz_uab x + tz_uab y) (tz_zab x + tz_zab y) (tz_tc x + tz_tc y) (tz_uc x + tz_uc y)
          (tz_zc x + tz_zc y).

(** verifier.hpp:95-204 [pairing_check] (left, right); the flag [valid] only changes at the end, see below *)
Definition pc_state := (GT * GT)%type.
(** verifier.hpp:149-167 [merge_random] with the drawn coefficient *)
Definition merge_random (coeff : F) (pc : pc_state) (ab : seq (G1 * G2)) (out : GT) : pc_state :=
  (foldl (fun l p => l + e (coeff *: p.1) p.2) pc.1 ab, pc.2 + (if out == 0 then out else coeff *: out)).
(** verifier.hpp:172-186 [merge_nonrandom] *)
Definition merge_nonrandom (pc : pc_state) (ls : seq GT) (out : GT) : pc_state := (foldl +%R pc.1 ls, pc.2 + out).

(** verifier.hpp:206-263 [verify_kzg_v]; [k1], [k2] are the coefficients drawn by the two calls of merge_random *)
Definition verify_kzg_v (s : agg_verification_srs) (final_vkey opening : G2 * G2) (xs : seq F) (z k1 k2 : F) (pc : pc_state)
    : option pc_state :=
  olet fz <- eval_product xs z 1;
  let pc1 := merge_random k1 pc [:: (- vs_g s, final_vkey.1 - fz *: vs_h s); (vs_g_alpha s - z *: vs_g s, opening.1)] 0 in
  Some (merge_random k2 pc1 [:: (- vs_g s, final_vkey.2 - fz *: vs_h s); (vs_g_beta s - z *: vs_g s, opening.2)] 0).

(** verifier.hpp:266-315 [verify_kzg_w] *)
Definition verify_kzg_w (s : agg_verification_srs) (final_wkey opening : G1 * G1) (xs : seq F) (r_shift z k1 k2 : F)
    (pc : pc_state) : option pc_state :=
  olet fz <- eval_product xs z r_shift;
  let fwz := fz * z ^+ vs_n s in
  let pc1 := merge_random k1 pc [:: (final_wkey.1 - fwz *: vs_g s, - vs_h s); (opening.1, vs_h_alpha s - z *: vs_h s)] 0 in
  Some (merge_random k2 pc1 [:: (final_wkey.2 - fwz *: vs_g s, - vs_h s); (opening.2, vs_h_beta s - z *: vs_h s)] 0).

(** verifier.hpp:339-384: the challenges (the inverses, in order) and the transcript afterwards *)
Fixpoint gipa_challenges (tr : seq tr_item) (comms_ab : seq ((GT * GT) * (GT * GT))) (z_ab : seq (GT * GT))
    (comms_c : seq ((GT * GT) * (GT * GT))) (z_c : seq (G1 * G1)) : seq F * seq tr_item :=
  match comms_ab, z_ab, comms_c, z_c with
  | tab :: comms_ab', zab :: z_ab', tuc :: comms_c', zc :: z_c' =>
    let tr1 := tr ++ [:: TrGT zab.1; TrGT zab.2; TrG1 zc.1; TrG1 zc.2; TrGT tab.1.1; TrGT tab.1.2; TrGT tab.2.1; TrGT tab.2.2;
                         TrGT tuc.1.1; TrGT tuc.1.2; TrGT tuc.2.1; TrGT tuc.2.2] in
    let rest := gipa_challenges tr1 comms_ab' z_ab' comms_c' z_c' in
    (chal tr1 :: rest.1, rest.2)
  | _, _, _, _ => ([::], tr)
  end.

(** verifier.hpp:400-445 *)
Fixpoint gipa_res (res : gipa_tuz) (comms_ab : seq ((GT * GT) * (GT * GT))) (z_ab : seq (GT * GT))
    (comms_c : seq ((GT * GT) * (GT * GT))) (z_c : seq (G1 * G1)) (cs : seq (F * F)) : gipa_tuz :=
  match comms_ab, z_ab, comms_c, z_c, cs with
  | tab :: comms_ab', zab :: z_ab', tuc :: comms_c', zc :: z_c', (c, c_inv) :: cs' =>
    gipa_res (GipaTuz (tz_tab res + c *: tab.1.1 + c_inv *: tab.2.1) (tz_uab res + c *: tab.1.2 + c_inv *: tab.2.2)
                (tz_zab res + c *: zab.1 + c_inv *: zab.2) (tz_tc res + c *: tuc.1.1 + c_inv *: tuc.2.1)
                (tz_uc res + c *: tuc.1.2 + c_inv *: tuc.2.2) (tz_zc res + c *: zc.1 + c_inv *: zc.2))
      comms_ab' z_ab' comms_c' z_c' cs'
  | _, _, _, _, _ => res
  end.

(** verifier.hpp:326-460 [gipa_verify_tipp_mipp]. [None]: the four vectors have different lengths (the zipped iterators
    then never meet their end), or they are empty. Returns the merged values, final_r, the reversed challenges and inverses,
    and the transcript. *)
Definition gipa_verify (tr : seq tr_item) (p : agg_proof) (r_shift : F)
    : option (gipa_tuz * F * seq F * seq F * seq tr_item) :=
  let g := ap_gipa p in
  oguard [&& size (gp_comms_ab g) == size (gp_z_ab g), size (gp_comms_ab g) == size (gp_comms_c g)
           & size (gp_comms_ab g) == size (gp_z_c g)];
  let ct := gipa_challenges (rcons tr (TrTag tag_gipa)) (gp_comms_ab g) (gp_z_ab g) (gp_comms_c g) (gp_z_c g) in
  let challenges_inv := ct.1 in
  let challenges := [seq x^-1 | x <- challenges_inv] in
  let final_res := GipaTuz (ap_com_ab p).1 (ap_com_ab p).2 (ap_ip_ab p) (ap_com_c p).1 (ap_com_c p).2 (ap_agg_c p) in
  let res := gipa_res (GipaTuz 0 0 0 0 0 0) (gp_comms_ab g) (gp_z_ab g) (gp_comms_c g) (gp_z_c g)
               (zip challenges challenges_inv) in
  olet final_r <- eval_product (rev challenges_inv) r_shift 1;
  Some (tuz_merge final_res res, final_r, rev challenges, rev challenges_inv, ct.2).

(** verifier.hpp:465-545 [verify_tipp_mipp]; [ks] are the nine drawn coefficients. Returns the pairing check and whether it is
    still valid. *)
Definition verify_tipp_mipp (tr : seq tr_item) (s : agg_verification_srs) (p : agg_proof) (r_shift : F) (ks : nat -> F)
    (pc : pc_state) : option (pc_state * bool) :=
  let g := ap_gipa p in
  olet v <- gipa_verify tr p r_shift;
  let: (final_res, final_r, challenges, challenges_inv, tr1) := v in
  olet c0 <- vget challenges 0;
  let tr2 := tr1 ++ [:: TrTag tag_random_z; TrScalar c0; TrG2 (gp_final_vkey g).1; TrG2 (gp_final_vkey g).2;
                        TrG1 (gp_final_wkey g).1; TrG1 (gp_final_wkey g).2] in
  let c := chal tr2 in
  olet pc1 <- verify_kzg_v s (gp_final_vkey g) (ap_vkey_opening p) challenges_inv c (ks 0%N) (ks 1%N) pc;
  olet pc2 <- verify_kzg_w s (gp_final_wkey g) (ap_wkey_opening p) challenges r_shift^-1 c (ks 2%N) (ks 3%N) pc1;
  let pc3 := merge_random (ks 4%N) pc2 [:: (gp_final_a g, gp_final_b g)] (tz_zab final_res) in
  let pc4 := merge_random (ks 5%N) pc3 [:: (gp_final_a g, (gp_final_vkey g).1); ((gp_final_wkey g).1, gp_final_b g)]
               (tz_tab final_res) in
  let pc5 := merge_random (ks 6%N) pc4 [:: (gp_final_a g, (gp_final_vkey g).2); ((gp_final_wkey g).2, gp_final_b g)]
               (tz_uab final_res) in
  let final_z := final_r *: gp_final_c g in
  let pc6 := merge_random (ks 7%N) pc5 [:: (gp_final_c g, (gp_final_vkey g).1)] (tz_tc final_res) in
  let pc7 := merge_random (ks 8%N) pc6 [:: (gp_final_c g, (gp_final_vkey g).2)] (tz_uc final_res) in
  Some (pc7, final_z == tz_zc final_res).

(** verification_key.hpp:38-62 [r1cs_gg_ppzksnark_aggregate_verification_key] *)
Record agg_verification_key := AggVerificationKey {
  av_alpha_g1 : G1; av_beta_g2 : G2; av_gamma_g2 : G2; av_delta_g2 : G2; av_ABC_first : G1; av_ABC_rest : seq G1 }.

(** verification_key.hpp:70-73: conversion to a Groth16 verification key *)
Definition agg_to_g16_key (vk : agg_verification_key) : g16_verification_key G1 G2 GT :=
  G16VerificationKey (e (av_alpha_g1 vk) (av_beta_g2 vk)) (av_gamma_g2 vk) (av_delta_g2 vk) (av_ABC_first vk) (av_ABC_rest vk).

(** verifier.hpp:571-666 [verify_aggregate_proof]; [gamma_ABC_g1.size()] is the number of inputs the key is made for
    (container::accumulation_vector, the length of [rest]). [None]: the assertion of 579, [public_inputs[0]] of an empty range, or
    [None] above. *)
Definition verify_aggregate_proof (s : agg_verification_srs) (vk : agg_verification_key) (public_inputs : seq (seq F))
    (p : agg_proof) (tr_include : seq nat) (ks : nat -> F) : option bool :=
  oguard all (fun pi => size pi == size (av_ABC_rest vk)) public_inputs;
  let tr := [:: TrTag tag_snarkpack; TrTag tag_random_r; TrGT (ap_com_ab p).1; TrGT (ap_com_ab p).2; TrGT (ap_com_c p).1;
               TrGT (ap_com_c p).2; TrBytes tr_include] in
  let r := chal tr in
  let tr1 := tr ++ [:: TrGT (ap_ip_ab p); TrG1 (ap_agg_c p)] in
  olet v <- verify_tipp_mipp tr1 s p r ks (0, 0);
  let r_sum := (r ^+ size public_inputs - 1) * (r - 1)^-1 in
  let powers := structured_scalar_power (size public_inputs) r in
  olet pi0 <- vget public_inputs 0;
  let multi_r_vec := [seq foldl (fun c j => c + nth 0 (nth [::] public_inputs j) i * nth 0 powers j) (nth 0 pi0 i)
                           (iota 1 (size public_inputs).-1) | i <- iota 0 (size pi0)] in
  let left := e (r_sum *: av_alpha_g1 vk) (av_beta_g2 vk) in
  let right := e (ap_agg_c p) (av_delta_g2 vk) in
  let totsi := accumulate_chunk (av_ABC_first vk) (av_ABC_rest vk) multi_r_vec - av_ABC_first vk in
  let g_ic := r_sum *: av_ABC_first vk + totsi in
  let middle := e g_ic (av_gamma_g2 vk) in
  let pc := merge_nonrandom v.1 [:: left; middle; right] (ap_ip_ab p) in
  Some (v.2 && (pc.1 == pc.2)).

End Aggregate.
