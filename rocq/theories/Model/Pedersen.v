(** Model of commitments/polynomial/pedersen.hpp (verifiable secret sharing). The group is a module over the scalar field
    written additively. Out of range accesses and inversions of zero are [None]. Random elements are arguments. *)
From mathcomp Require Import all_ssreflect all_algebra.
From Verif.Model Require Import Base OrderedMap.
Set Implicit Arguments.
Unset Strict Implicit.
Unset Printing Implicit Defensive.
Import GRing.Theory.
Local Open Scope ring_scope.

Section Pedersen.
Variables (F : fieldType) (G : lmodType F).

(** pedersen.hpp:44-56. [int]s are natural numbers here (no overflow). *)
Record ped_params := PedParams { pd_n : nat; pd_k : nat; pd_g : G; pd_h : G }.
(** 58-67 *)
Definition ped_private_key := (F * F)%type.
(** 69-73 *)
Record ped_proof := PedProof { pf_E0 : G; pf_E : seq G; pf_pk : seq ped_private_key }.

(** 90-93 *)
Definition ped_commitment (params : ped_params) (pk : ped_private_key) : G := pk.1 *: pd_g params + pk.2 *: pd_h params.

(** 95-111 [poly_eval]: the values at 1..n of the polynomial with the first k coefficients *)
Definition ped_poly_eval (params : ped_params) (coeffs : seq F) : option (seq F) :=
  omapM (fun i =>
    olet c0 <- vget coeffs 0;
    omap snd (ofold (fun (st : F * F) j =>
        let spare := st.1 * i%:R in
        olet c <- vget coeffs j; Some (spare, st.2 + spare * c)) (1, c0) (iota 1 (pd_k params).-1)))
    (iota 1 (pd_n params)).

(** 113-143 [proof_eval]: [t] and [rs] are the random elements drawn at 117 and 125-131 (one pair per round) *)
Definition ped_proof_eval (params : ped_params) (w t : F) (rs : seq (F * F)) : option ped_proof :=
  let E_0 := ped_commitment params (w, t) in
  let f_coeffs := w :: [seq r.1 | r <- rs] in
  let g_coeffs := t :: [seq r.2 | r <- rs] in
  olet s_i <- ped_poly_eval params f_coeffs;
  olet t_i <- ped_poly_eval params g_coeffs;
  olet pk <- omapM (fun i => olet s <- vget s_i i; olet t <- vget t_i i; Some (s, t)) (iota 0 (pd_n params));
  olet E <- omapM (fun i => olet f <- vget f_coeffs i; olet g <- vget g_coeffs i; Some (ped_commitment params (f, g)))
    (iota 1 (pd_k params).-1);
  Some (PedProof E_0 E pk).

(** 145-164 [verify_eval] *)
Definition ped_verify_eval (params : ped_params) (prf : ped_proof) : option bool :=
  ofold (fun answer i =>
    olet pk <- vget (pf_pk prf) i.-1;
    let E := ped_commitment params pk in
    olet st <- ofold (fun (st : F * G) j =>
        let power := st.1 * i%:R in
        olet e <- vget (pf_E prf) j.-1; Some (power, st.2 + power *: e)) (1, pf_E0 prf) (iota 1 (pd_k params).-1);
    Some (answer && (E == st.2))) true (iota 1 (pd_n params)).

(** 166-186 [message_eval] *)
Definition ped_message_eval (params : ped_params) (prf : ped_proof) (idx : seq nat) : option F :=
  if (size idx < pd_k params)%N then Some 0 else
  olet ok <- ped_verify_eval params prf;
  if ~~ ok then Some 0 else
  ofold (fun sum j =>
    olet xj <- vget idx j;
    olet mult <- ofold (fun mult l =>
        if l == j then Some mult else
        olet xl <- vget idx l;
        oguard xl%:R - xj%:R != 0 :> F;
        Some (mult * (xl%:R * (xl%:R - xj%:R)^-1))) 1 (iota 0 (pd_k params));
    oguard (0 < xj)%N; olet pk <- vget (pf_pk prf) xj.-1;
    Some (sum + mult * pk.1)) 0 (iota 0 (pd_k params)).
End Pedersen.
