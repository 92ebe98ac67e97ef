(** Model of commitments/polynomial/kzg.hpp and kzg_v2.hpp. The groups are modules over the scalar field written additively
    (GT too), [e] is the reduced pairing, [g1] and [g2] the generators [one()]. Assertions are failures ([None]). *)
From mathcomp Require Import all_ssreflect all_algebra.
From Verif.Model Require Import Base KnowledgeCommitment OrderedMap Transcript PolysEvaluator.
Set Implicit Arguments.
Unset Strict Implicit.
Unset Printing Implicit Defensive.
Import GRing.Theory.
Local Open Scope ring_scope.

Section Kzg.
Variables (F : fieldType) (G1 G2 GT : lmodType F) (e : G1 -> G2 -> GT) (g1 : G1) (g2 : G2).

(** kzg.hpp:105-108, 115-118: successive multiples of a generator by alpha *)
Fixpoint powers_of (V : lmodType F) (alpha : F) (x : V) (n : nat) : seq V :=
  if n is n'.+1 then x :: powers_of alpha (alpha *: x) n' else [::].

(** ** The simple scheme *)
(** kzg.hpp:91-98, 111-121 *)
Record kzg_params := KzgParams { kzg_commitment_key : seq G1; kzg_verification_key : G2 }.
Definition kzg_setup (d : nat) (alpha : F) : kzg_params := KzgParams (powers_of alpha g1 d) (alpha *: g2).

(** kzg.hpp:143-148, 409-420, 427-435 [commit], [commit_one] *)
Definition commit_with (V : lmodType F) (key : seq V) (f : {poly F}) : option V :=
  oguard (size f <= size key)%N; Some (multiexp (take (size f) key) f).

(** kzg.hpp:155-172 [proof_eval]; [None] also stands for the exception *)
Definition kzg_proof_eval (params : kzg_params) (f : {poly F}) (z : F) : option G1 :=
  let denominator_polynom := 'X - z%:P in
  let q := f - f.[z]%:P in
  let r := q %% denominator_polynom in
  oguard r == 0;
  commit_with (kzg_commitment_key params) (q %/ denominator_polynom).

(** kzg.hpp:123-130 *)
Record kzg_public_key := KzgPublicKey { kpk_commit : G1; kpk_z : F; kpk_eval : F }.
(** kzg.hpp:191-206 [verify_eval]; the product of two pairings is one *)
Definition kzg_verify_eval (params : kzg_params) (proof : G1) (pk : kzg_public_key) : bool :=
  e proof (kzg_verification_key params - kpk_z pk *: g2) + e (kpk_eval pk *: g1 - kpk_commit pk) g2 == 0.

(** ** The batched scheme *)
(** kzg.hpp:252-298 *)
Record bkzg_params := BkzgParams { bk_commitment_key : seq G1; bk_verification_key : seq G2 }.
Definition bkzg_setup (d t : nat) (alpha : F) : bkzg_params := BkzgParams (powers_of alpha g1 d) (powers_of alpha g2 t.+1).

(** kzg.hpp:483-489, 667-676 [merge_eval_points]. The code's set is sorted by the field's [operator<]; here the points are
    in order of first appearance (only products over all the points are ever formed). *)
Definition merge_points (S : seq (seq F)) : seq F := undup (flatten S).
(** kzg.hpp:518-526 [create_polynom_by_zeros]; [None]: assertion violated *)
Definition create_polynom_by_zeros (S : seq F) : option {poly F} :=
  if S is x :: S' then Some (foldl (fun Z y => Z * ('X - y%:P)) ('X - x%:P) S') else None.
(** kzg.hpp:536-547 [set_difference_polynom] *)
Definition set_difference (T S : seq F) : seq F := [seq x <- T | x \notin S].
Definition set_difference_polynom (T S : seq F) : option {poly F} :=
  let result := set_difference T S in
  if size result == 0%N then Some 1 else create_polynom_by_zeros result.

(** kzg.hpp:300-317 *)
Record bkzg_public_key := BkzgPublicKey {
  bpk_commits : seq G1; bpk_T : seq F; bpk_S : seq (seq F); bpk_r : seq {poly F} }.
(** kzg.hpp:383-397 [create_evals_polys] *)
Definition create_evals_polys (polys : seq {poly F}) (S : seq (seq F)) : option (seq {poly F}) :=
  oguard size polys == size S;
  Some [seq lagrange_interpolation [seq (s, ps.1.[s]) | s <- ps.2] | ps <- zip polys S].

(** Words of the transcript: encodings of group and field elements *)
Variables (B : Type) (hash : seq B -> seq B) (digest_to_field : seq B -> F).
Variables (enc_g1 : G1 -> seq B) (dec_g1 : seq B -> option G1) (enc_f : F -> seq B).
Notation absorb := (tr_absorb hash).
Notation challenge := (tr_challenge hash digest_to_field).

(** kzg.hpp:329-373 [update_transcript] *)
Definition bkzg_update_transcript (pk : bkzg_public_key) (tr : transcript B) : transcript B :=
  let tr := foldl absorb tr [seq enc_g1 c | c <- bpk_commits pk] in
  let tr := foldl absorb tr [seq enc_f s | s <- flatten (bpk_S pk)] in
  foldl absorb tr [seq enc_f c | c <- flatten [seq (r : seq F) | r : {poly F} <- bpk_r pk]].

(** kzg.hpp:557-595 [proof_eval] of the batched scheme. The assertions on the loop (565-569) are guards. *)
Definition bkzg_proof_eval (params : bkzg_params) (polys : seq {poly F}) (pk : bkzg_public_key) (tr : transcript B)
    : option (G1 * transcript B) :=
  let (gamma, tr) := challenge (bkzg_update_transcript pk tr) in
  olet accum <- power_loop gamma (fun factor ki =>
      olet p <- vget polys ki.2; olet r <- vget (bpk_r pk) ki.2; olet Si <- vget (bpk_S pk) ki.2;
      olet denom <- create_polynom_by_zeros Si;
      oguard all (fun s => (p - r).[s] == 0) Si;
      oguard (p - r) %% denom == 0;
      Some (factor *: ((p - r) %/ denom))) [seq (0%N, i) | i <- iota 0 (size polys)];
  omap (fun c => (c, tr)) (commit_with (bk_commitment_key params) accum).

(** kzg.hpp:604-629 [verify_eval] of the batched scheme *)
Definition bkzg_verify_eval (params : bkzg_params) (proof : G1) (pk : bkzg_public_key) (tr : transcript B)
    : option (bool * transcript B) :=
  let (gamma, tr) := challenge (bkzg_update_transcript pk tr) in
  olet left_side <- power_loop gamma (fun factor ki =>
      olet c <- vget (bpk_commits pk) ki.2; olet r <- vget (bpk_r pk) ki.2; olet Si <- vget (bpk_S pk) ki.2;
      olet r_commit <- commit_with (bk_commitment_key params) r;
      olet diff <- set_difference_polynom (bpk_T pk) Si;
      olet right_g2 <- commit_with (bk_verification_key params) diff;
      oguard (size (bpk_commits pk) == 1%N) ==> (right_g2 == g2);
      Some (e (factor *: (c - r_commit)) right_g2)) [seq (0%N, i) | i <- iota 0 (size (bpk_commits pk))];
  olet V <- create_polynom_by_zeros (bpk_T pk);
  olet right_g2 <- commit_with (bk_verification_key params) V;
  Some (left_side == e proof right_g2, tr).

(** ** The scheme used by Placeholder *)
(** kzg.hpp:653-657, kzg_v2.hpp: the evaluator and the packed commitments ([_ind_commitments] is never read) *)
Record kzg_scheme := KzgScheme { ks_params : bkzg_params; ks_ev : evaluator F; ks_commitments : omapT (seq B) }.

(** kzg.hpp:748-765, kzg_v2.hpp:208-225 [commit(index)] *)
Definition kzg_commit (s : kzg_scheme) (k : nat) : option (seq B * kzg_scheme) :=
  let ev := state_commited (ks_ev s) k in
  olet cs <- omapM (commit_with (bk_commitment_key (ks_params s))) (odflt [::] (om_get (ev_polys ev) k));
  let blob := flatten [seq enc_g1 c | c <- cs] in
  Some (blob, KzgScheme (ks_params s) ev (om_set (ks_commitments s) k blob)).

(** kzg.hpp:667-676, kzg_v2.hpp:121-130 *)
Definition kzg_merged_points (ev : evaluator F) : seq F := merge_points (flatten [seq b.2 | b <- ev_points ev]).

(** kzg.hpp:678-693, kzg_v2.hpp:132-147 with [get_V] *)
Definition kzg_difference_polynom (T S : seq F) : option {poly F} :=
  let result := set_difference T S in
  if size result == 0%N then Some 1 else
  oguard get_V result * get_V S == get_V T;
  Some (get_V result).

(** kzg.hpp:695-739, kzg_v2.hpp:149-193 [update_transcript] for one batch *)
Definition kzg_update_transcript (s : kzg_scheme) (tr : transcript B) (k : nat) : option (transcript B) :=
  let tr := absorb tr (odflt [::] (om_get (ks_commitments s) k)) in
  olet zs <- om_get (ev_z (ks_ev s)) k;
  let tr := foldl absorb tr [seq enc_f x | x <- flatten zs] in
  olet Us <- omapM (get_U (ks_ev s) k) (iota 0 (size (odflt [::] (om_get (ev_points (ks_ev s)) k))));
  Some (foldl absorb tr [seq enc_f c | c <- flatten [seq (U : seq F) | U : {poly F} <- Us]]).

(** kzg.hpp:776-815 [proof_eval] *)
Definition kzg_scheme_proof_eval (s : kzg_scheme) (tr : transcript B) : option ((eval_storage F * G1) * transcript B) :=
  olet ev <- eval_polys (ks_ev s);
  let s := KzgScheme (ks_params s) ev (ks_commitments s) in
  olet tr <- ofold (kzg_update_transcript s) tr (om_keys (ks_commitments s));
  let (gamma, tr) := challenge tr in
  olet idx <- batch_indices (fun k => omap size (om_get (ev_z ev) k)) (om_keys (ev_polys ev));
  olet accum <- power_loop gamma (fun factor ki =>
      olet p <- om_get2 (ev_polys ev) ki; olet U <- get_U ev ki.1 ki.2; olet Si <- om_get2 (ev_points ev) ki;
      Some ((factor *: (p - U)) %/ get_V Si)) idx;
  olet c <- commit_with (bk_commitment_key (ks_params s)) accum;
  Some ((ev_z ev, c), tr).

(** kzg.hpp:832-841: the i-th of the [n] commitments packed in a blob *)
Definition blob_commitment (blob : seq B) (n i : nat) : option G1 :=
  let blob_size := (size blob %/ n)%N in dec_g1 (take blob_size (drop (i * blob_size) blob)).

(** kzg.hpp:817-867 [verify_eval] *)
Definition kzg_scheme_verify_eval (s : kzg_scheme) (proof : eval_storage F * G1) (commitments : omapT (seq B))
    (tr : transcript B) : option (bool * transcript B) :=
  let merged := kzg_merged_points (ks_ev s) in
  let ev := Evaluator proof.1 (ev_polys (ks_ev s)) (ev_locked (ks_ev s)) (ev_points (ks_ev s)) in
  let s := KzgScheme (ks_params s) ev commitments in
  olet tr <- ofold (kzg_update_transcript s) tr (om_keys commitments);
  let (gamma, tr) := challenge tr in
  olet idx <- batch_indices (fun k => omap size (om_get (ev_points ev) k)) (om_keys commitments);
  olet left_side <- power_loop gamma (fun factor ki =>
      olet batch <- om_get (ev_points ev) ki.1; olet blob <- om_get commitments ki.1;
      olet c <- blob_commitment blob (size batch) ki.2;
      olet U <- get_U ev ki.1 ki.2;
      olet U_commit <- commit_with (bk_commitment_key (ks_params s)) U;
      olet Si <- vget batch ki.2;
      olet diff <- kzg_difference_polynom merged Si;
      olet D <- commit_with (bk_verification_key (ks_params s)) diff;
      Some (e (factor *: (c - U_commit)) D)) idx;
  olet right_g2 <- commit_with (bk_verification_key (ks_params s)) (get_V merged);
  Some (left_side == e proof.2 right_g2, tr).

(** ** Version 2 (kzg_v2.hpp) *)
(** kzg_v2.hpp:199-205: keys with two elements in G2 *)
Definition kzg_v2_create_params (d : nat) (alpha : F) : bkzg_params := bkzg_setup d 1 alpha.

(** kzg_v2.hpp:236-310 [proof_eval] *)
Definition kzg_v2_proof_eval (s : kzg_scheme) (tr : transcript B) : option ((eval_storage F * G1 * G1) * transcript B) :=
  olet ev <- eval_polys (ks_ev s);
  let merged := kzg_merged_points ev in
  let s := KzgScheme (ks_params s) ev (ks_commitments s) in
  olet tr <- ofold (kzg_update_transcript s) tr (om_keys (ks_commitments s));
  let (theta, tr) := challenge tr in
  olet idx <- batch_indices (fun k => omap size (om_get (ev_z ev) k)) (om_keys (ev_polys ev));
  olet f <- power_loop theta (fun theta_i ki =>
      olet Si <- om_get2 (ev_points ev) ki; olet diffpoly <- kzg_difference_polynom merged Si;
      olet p <- om_get2 (ev_polys ev) ki; olet U <- get_U ev ki.1 ki.2;
      Some (theta_i *: (p - U) * diffpoly)) idx;
  oguard f %% get_V merged == 0;
  let f := f %/ get_V merged in
  olet pi_1 <- commit_with (bk_commitment_key (ks_params s)) f;
  let tr := absorb tr (enc_g1 pi_1) in
  let (theta_2, tr) := challenge tr in
  olet L <- power_loop theta (fun theta_i ki =>
      olet Si <- om_get2 (ev_points ev) ki; olet diffpoly <- kzg_difference_polynom merged Si;
      let Z_T_S_i := diffpoly.[theta_2] in
      olet p <- om_get2 (ev_polys ev) ki; olet U <- get_U ev ki.1 ki.2;
      Some ((theta_i * Z_T_S_i) *: (p - (U.[theta_2])%:P))) idx;
  let L := L - (get_V merged).[theta_2] *: f in
  oguard L.[theta_2] == 0;
  let L := L %/ ('X - theta_2%:P) in
  olet pi_2 <- commit_with (bk_commitment_key (ks_params s)) L;
  Some ((ev_z ev, pi_1, pi_2), absorb tr (enc_g1 pi_2)).

(** kzg_v2.hpp:312-373 [verify_eval]. The transcript is left without pi_2 (unlike the prover's). [None] also stands for the
    division by zero at 341 for a batch without polynomials. *)
Definition kzg_v2_verify_eval (s : kzg_scheme) (proof : eval_storage F * G1 * G1) (commitments : omapT (seq B))
    (tr : transcript B) : option (bool * transcript B) :=
  let: (z, pi_1, pi_2) := proof in
  let merged := kzg_merged_points (ks_ev s) in
  let ev := Evaluator z (ev_polys (ks_ev s)) (ev_locked (ks_ev s)) (ev_points (ks_ev s)) in
  let s := KzgScheme (ks_params s) ev commitments in
  olet tr <- ofold (kzg_update_transcript s) tr (om_keys commitments);
  let (theta, tr) := challenge tr in
  let tr := absorb tr (enc_g1 pi_1) in
  let (theta_2, tr) := challenge tr in
  olet idx <- batch_indices (fun k => olet b <- om_get (ev_points ev) k; oguard size b != 0%N; Some (size b)) (om_keys commitments);
  olet Fr <- power_loop theta (fun theta_i ki =>
      olet batch <- om_get (ev_points ev) ki.1; olet blob <- om_get commitments ki.1;
      olet c <- blob_commitment blob (size batch) ki.2;
      olet Si <- vget batch ki.2;
      olet diff <- kzg_difference_polynom merged Si;
      let Z_T_S_i := diff.[theta_2] in
      olet U <- get_U ev ki.1 ki.2;
      Some ((theta_i * Z_T_S_i) *: c, theta_i * Z_T_S_i * U.[theta_2])) idx;
  let (Fc, rsum) := Fr : G1 * F in
  let Fc := Fc - rsum *: g1 - (get_V merged).[theta_2] *: pi_1 in
  olet vk1 <- vget (bk_verification_key (ks_params s)) 1;
  Some (e (Fc + theta_2 *: pi_2) g2 == e pi_2 vk1, tr).
End Kzg.
