(** Model of commitments/polynomial/{powers_of_tau,proof_of_knowledge}.hpp,
    commitments/detail/polynomial/{element_proof_of_knowledge,vector_pairs}.hpp and
    commitments/detail/polynomial/powers_of_tau/{private_key,public_key,accumulator,result}.hpp.
    The groups are modules over the scalar field, written additively; [e] is the reduced pairing; [g1], [g2] are the
    [one()] of the groups. Byte strings are lists of naturals; hashing, serialisation and the seeded generators are
    arbitrary functions. Random draws are arguments: group elements by name, and [rnd k] is the k-th scalar drawn by
    [merge_pairs] during one verification. [None] is an out-of-range access or a failed assertion. *)
From mathcomp Require Import all_ssreflect all_algebra.
From Verif.Model Require Import Base Domain KnowledgeCommitment.
Set Implicit Arguments.
Unset Strict Implicit.
Unset Printing Implicit Defensive.
Import GRing.Theory.
Local Open Scope ring_scope.

Section Tau.
Variables (F : fieldType) (G1 G2 GT : lmodType F).
Variable e : G1 -> G2 -> GT.
Variables (g1 : G1) (g2 : G2).

(** private_key.hpp: the three secret scalars of a contribution *)
Record tau_private_key := TauPrivateKey { tk_tau : F; tk_alpha : F; tk_beta : F }.

(** element_proof_of_knowledge.hpp:34-48 *)
Record element_pok := ElementPok { pok_g1_s : G1; pok_g1_s_x : G1; pok_g2_s_x : G2 }.

(** public_key.hpp:36-48 *)
Record tau_public_key := TauPublicKey { tp_tau : element_pok; tp_alpha : element_pok; tp_beta : element_pok }.

(** accumulator.hpp:56-65 *)
Record tau_accumulator := TauAccumulator {
  ta_tau_g1 : seq G1; ta_tau_g2 : seq G2; ta_alpha_g1 : seq G1; ta_beta_g1 : seq G1; ta_beta_g2 : G2 }.

(** accumulator.hpp:54 and 67-73: the default accumulator for TauPowersLength = [n]. For n = 0 the C++ computes
    [0 - 1] in an unsigned type; the theorems assume n > 0. *)
Definition tau_powers_g1_length (n : nat) : nat := (n.*2 - 1)%N.
Definition tau_accumulator_init (n : nat) : tau_accumulator :=
  TauAccumulator (nseq (tau_powers_g1_length n) g1) (nseq n g2) (nseq n g1) (nseq n g1) g2.

(** accumulator.hpp:124-138 [naive_batch_exp]; [None]: the assertion of 129 fails *)
Definition naive_batch_exp (V : lmodType F) (bases : seq V) (pows : seq F) : option (seq V) :=
  if (size bases <= size pows)%N then Some [seq p.2 *: p.1 | p <- zip bases pows] else None.

(** accumulator.hpp:140-155 [naive_batch_exp_with_coeff] *)
Definition naive_batch_exp_with_coeff (V : lmodType F) (bases : seq V) (pows : seq F) (coeff : F) : option (seq V) :=
  if (size bases <= size pows)%N then Some [seq (coeff * p.2) *: p.1 | p <- zip bases pows] else None.

(** accumulator.hpp:89-121 [transform] *)
Definition tau_transform (n : nat) (a : tau_accumulator) (k : tau_private_key) : option tau_accumulator :=
  let taupowers := powers (tk_tau k) (tau_powers_g1_length n) in
  obnd (naive_batch_exp (ta_tau_g1 a) taupowers) (fun t1 =>
  obnd (naive_batch_exp (ta_tau_g2 a) taupowers) (fun t2 =>
  obnd (naive_batch_exp_with_coeff (ta_alpha_g1 a) taupowers (tk_alpha k)) (fun al =>
  obnd (naive_batch_exp_with_coeff (ta_beta_g1 a) taupowers (tk_beta k)) (fun be =>
  Some (TauAccumulator t1 t2 al be (tk_beta k *: ta_beta_g2 a)))))).

(** A ceremony: every participant transforms the accumulator left by the previous one. *)
Definition tau_ceremony (n : nat) (keys : seq tau_private_key) : option tau_accumulator :=
  ofold (tau_transform n) (tau_accumulator_init n) keys.

(** ** proofs of knowledge *)

(** blake2b<256> of a byte string, first byte *)
Variable blake256_first : seq nat -> nat.
(** random_element<g2_type> with an mt19937 seeded by a byte *)
Variable random_g2 : nat -> G2.
(** serialize_g1_uncompressed *)
Variable serialize_g1 : G1 -> seq nat.

(** proof_of_knowledge.hpp:77-105 [compute_g2_s]. Lines 90 and 93 append the two serialised points to themselves and
    not to the string that is hashed (inserting into a vector while copying from it is undefined behaviour; the model
    takes the intended "copy of itself" and, as in the code, never uses the result). *)
Definition compute_g2_s (g1_s g1_s_x : G1) (transcript : seq nat) (personalization : nat) : G2 :=
  let personalization_transcript_g1s_g1sx := personalization :: transcript in
  let g1_s_blob := serialize_g1 g1_s ++ serialize_g1 g1_s in
  let g1_s_x_blob := serialize_g1 g1_s_x ++ serialize_g1 g1_s_x in
  random_g2 (blake256_first personalization_transcript_g1s_g1sx).

(** proof_of_knowledge.hpp:53-63 [proof_eval]; [g1_s] is the point drawn at 57 *)
Definition pok_proof_eval (g1_s : G1) (x : F) (transcript : seq nat) (personalization : nat) : element_pok :=
  let g1_s_x := x *: g1_s in
  let g2_s := compute_g2_s g1_s g1_s_x transcript personalization in
  ElementPok g1_s g1_s_x (x *: g2_s).

(** proof_of_knowledge.hpp:72-75 [verify_eval] with a given g2_s *)
Definition pok_verify_with (p : element_pok) (g2_s : G2) : bool := e (pok_g1_s p) (pok_g2_s_x p) == e (pok_g1_s_x p) g2_s.

(** proof_of_knowledge.hpp:65-70 [verify_eval] *)
Definition pok_verify (p : element_pok) (transcript : seq nat) (personalization : nat) : bool :=
  pok_verify_with p (compute_g2_s (pok_g1_s p) (pok_g1_s_x p) transcript personalization).

(** ** pairs *)

(** powers_of_tau.hpp:158-163 and r1cs_gg_ppzksnark_mpc.hpp:193-198 [is_same_ratio] *)
Definition is_same_ratio (p : G1 * G1) (q : G2 * G2) : bool := e p.1 q.2 == e p.2 q.1.

(** vector_pairs.hpp:28-62 [merge_pairs]; the scalars drawn at 41-43 are [rnd off], [rnd (off + 1)], ... *)
Definition merge_pairs (V : lmodType F) (rnd : nat -> F) (off : nat) (v1 v2 : seq V) : option (V * V) :=
  if size v1 == size v2 then
    let r := mkseq (fun i => rnd (off + i)%N) (size v1) in
    Some (multiexp v1 r, multiexp v2 r)
  else None.

(** vector_pairs.hpp:66-71 [power_pairs]; [None]: [v.end() - 1] of an empty vector *)
Definition power_pairs (V : lmodType F) (rnd : nat -> F) (off : nat) (v : seq V) : option (V * V) :=
  if (0 < size v)%N then merge_pairs rnd off (take (size v - 1) v) (drop 1 v) else None.

(** ** one contribution *)

(** serialize_accumulator followed by blake2b<512> (powers_of_tau.hpp:165-183 [compute_transcript]) *)
Variable tau_transcript : tau_accumulator -> seq nat.

(** powers_of_tau.hpp:37-39 *)
Definition tau_personalization := 0%N.
Definition alpha_personalization := 1%N.
Definition beta_personalization := 2%N.

(** powers_of_tau.hpp:67-80 [proof_eval]; [s1], [s2], [s3] are the points drawn by the three proofs *)
Definition tau_proof_eval (k : tau_private_key) (before : tau_accumulator) (s1 s2 s3 : G1) : tau_public_key :=
  let transcript := tau_transcript before in
  TauPublicKey (pok_proof_eval s1 (tk_tau k) transcript tau_personalization)
               (pok_proof_eval s2 (tk_alpha k) transcript alpha_personalization)
               (pok_proof_eval s3 (tk_beta k) transcript beta_personalization).

(** powers_of_tau.hpp:82-156 [verify_eval] *)
Definition tau_verify_eval (rnd : nat -> F) (p : tau_public_key) (before after : tau_accumulator) : option bool :=
  let transcript := tau_transcript before in
  let tau_g2_s := compute_g2_s (pok_g1_s (tp_tau p)) (pok_g1_s_x (tp_tau p)) transcript tau_personalization in
  let alpha_g2_s := compute_g2_s (pok_g1_s (tp_alpha p)) (pok_g1_s_x (tp_alpha p)) transcript alpha_personalization in
  let beta_g2_s := compute_g2_s (pok_g1_s (tp_beta p)) (pok_g1_s_x (tp_beta p)) transcript beta_personalization in
  if ~~ pok_verify_with (tp_tau p) tau_g2_s then Some false
  else if ~~ pok_verify_with (tp_alpha p) alpha_g2_s then Some false
  else if ~~ pok_verify_with (tp_beta p) beta_g2_s then Some false
  else
  obnd (vget (ta_tau_g1 after) 0) (fun a10 =>
  if a10 != g1 then Some false else
  obnd (vget (ta_tau_g2 after) 0) (fun a20 =>
  if a20 != g2 then Some false else
  obnd (vget (ta_tau_g1 before) 1) (fun b11 =>
  obnd (vget (ta_tau_g1 after) 1) (fun a11 =>
  if ~~ is_same_ratio (b11, a11) (tau_g2_s, pok_g2_s_x (tp_tau p)) then Some false else
  obnd (vget (ta_alpha_g1 before) 0) (fun bal =>
  obnd (vget (ta_alpha_g1 after) 0) (fun aal =>
  if ~~ is_same_ratio (bal, aal) (alpha_g2_s, pok_g2_s_x (tp_alpha p)) then Some false else
  obnd (vget (ta_beta_g1 before) 0) (fun bbe =>
  obnd (vget (ta_beta_g1 after) 0) (fun abe =>
  if ~~ is_same_ratio (bbe, abe) (beta_g2_s, pok_g2_s_x (tp_beta p)) then Some false else
  if ~~ is_same_ratio (bbe, abe) (ta_beta_g2 before, ta_beta_g2 after) then Some false else
  obnd (vget (ta_tau_g2 after) 1) (fun a21 =>
  obnd (power_pairs rnd 0 (ta_tau_g1 after)) (fun q1 =>
  if ~~ is_same_ratio q1 (a20, a21) then Some false else
  let off2 := (size (ta_tau_g1 after) - 1)%N in
  obnd (power_pairs rnd off2 (ta_tau_g2 after)) (fun q2 =>
  if ~~ is_same_ratio (a10, a11) q2 then Some false else
  let off3 := (off2 + (size (ta_tau_g2 after) - 1))%N in
  obnd (power_pairs rnd off3 (ta_alpha_g1 after)) (fun q3 =>
  if ~~ is_same_ratio q3 (a20, a21) then Some false else
  let off4 := (off3 + (size (ta_alpha_g1 after) - 1))%N in
  obnd (power_pairs rnd off4 (ta_beta_g1 after)) (fun q4 =>
  if ~~ is_same_ratio q4 (a20, a21) then Some false else
  Some true))))))))))))).

(** ** result.hpp *)

(** result.hpp:50-57 *)
Record tau_result := TauResult {
  tr_alpha_g1 : G1; tr_beta_g1 : G1; tr_beta_g2 : G2;
  tr_coeffs_g1 : seq G1; tr_coeffs_g2 : seq G2; tr_alpha_coeffs_g1 : seq G1; tr_beta_coeffs_g1 : seq G1;
  tr_h : seq G1 }.

(** evaluation_domain::evaluate_all_lagrange_polynomials on the powers of a point held in a group (crypto3-math): the
    i-th result is the sum of the coefficients of the i-th Lagrange polynomial times the powers; it throws when there
    are fewer powers than points. *)
Definition group_lagrange (V : lmodType F) (dom : seq F) (pows : seq V) : option (seq V) :=
  if (size dom <= size pows)%N then
    Some [seq multiexp (take (size dom) pows) (lagrange_coefs dom i) | i <- iota 0 (size dom)]
  else None.

(** result.hpp:103-109 the loops computing one entry of [h]: reads [tau_powers_g1[i + j]] where Z[j] is non-zero *)
Definition tau_h_entry (Z : seq F) (tau_g1 : seq G1) (i : nat) : option G1 :=
  ofold (fun (acc : G1) j =>
           if nth 0 Z j == 0 then Some acc
           else obnd (vget tau_g1 (i + j)) (fun x => Some (acc + nth 0 Z j *: x)))
        0 (iota 0 (size Z)).

Fixpoint tau_h (Z : seq F) (tau_g1 : seq G1) (idx : seq nat) : option (seq G1) :=
  if idx is i :: idx' then obnd (tau_h_entry Z tau_g1 i) (fun x => omap (cons x) (tau_h Z tau_g1 idx')) else Some [::].

(** result.hpp:72-119 [from_accumulator]; [dom] is the domain made at 81-82 for [m]. The assertion of 84 is
    [size dom <= n]. [m - 1] wraps in C++ for m = 0, which no domain has. *)
Definition tau_from_accumulator (n : nat) (dom : seq F) (m : nat) (a : tau_accumulator) : option tau_result :=
  obnd (vget (ta_alpha_g1 a) 0) (fun alpha_g1 =>
  obnd (vget (ta_beta_g1 a) 0) (fun beta_g1 =>
  if (size dom <= n)%N then
    obnd (group_lagrange dom (ta_tau_g1 a)) (fun c1 =>
    obnd (group_lagrange dom (ta_tau_g2 a)) (fun c2 =>
    obnd (group_lagrange dom (ta_alpha_g1 a)) (fun ca =>
    obnd (group_lagrange dom (ta_beta_g1 a)) (fun cb =>
    obnd (tau_h (zcoefs dom) (ta_tau_g1 a) (iota 0 (m - 1))) (fun h =>
    Some (TauResult alpha_g1 beta_g1 (ta_beta_g2 a) c1 c2 ca cb h))))))
  else None)).

End Tau.
