(** Model of the permutation argument: the fixed polynomials of snark/systems/plonk/placeholder/preprocessor.hpp and
    permutation_argument.hpp. A [polynomial_dfs] is the polynomial it denotes ([{poly F}]); where the code writes single
    values of a [polynomial_dfs] on the basic domain, the model works on the vector of values and then interpolates.
    Field inversion is [x^-1] (the value of [inversed()] on zero does not matter to the theorems). *)
From mathcomp Require Import all_ssreflect all_algebra.
From Verif.Model Require Import Base OrderedMap Domain PlonkVariable PlonkTable CycleRepresentation.
Set Implicit Arguments.
Unset Strict Implicit.
Unset Printing Implicit Defensive.
Import GRing.Theory.
Local Open Scope ring_scope.

Section BasicDomain.
Variables (F : fieldType) (omega : F) (rows : nat).
(** crypto3-math: the basic domain has the elements omega^0 .. omega^(rows-1); omega is [get_domain_element(1)] *)
Definition basic_domain : seq F := [seq omega ^+ i | i <- iota 0 rows].
(** crypto3-math: the [polynomial_dfs] with the given values on the basic domain *)
Definition dfs_of_values (v : seq F) : {poly F} := Poly (inverse_fft basic_domain v).
(** crypto3-math: [polynomial_shift(p, k, domain)] *)
Definition polynomial_shift (p : {poly F}) (k : int) : {poly F} := p \Po ((omega ^ k) *: 'X).
(** permutation_argument.hpp:334-353, lookup_argument.hpp:499-518 [reduce_dfs_polynomial_domain]: values on the basic domain *)
Definition values_on_domain (p : {poly F}) : seq F := [seq p.[x] | x <- basic_domain].

(** preprocessor.hpp:269-284 *)
Definition lagrange_polynomial (number : nat) : {poly F} :=
  dfs_of_values [seq (if i == number then 1 else 0) | i <- iota 0 rows].
(** preprocessor.hpp:461-472 *)
Definition selector_blind (usable : nat) : {poly F} :=
  dfs_of_values [seq (if (usable < j)%N then 1 else 0) | j <- iota 0 rows].

(** preprocessor.hpp:418-437: the values; [S_id[i][j] = S_id[i][j-1] * omega] *)
Definition identity_values (delta : F) (i : nat) : seq F := traject (fun x => x * omega) (delta ^+ i) rows.
Definition identity_polynomials (permutation_size : nat) (delta : F) : seq {poly F} :=
  [seq dfs_of_values (identity_values delta i) | i <- iota 0 permutation_size].

(** preprocessor.hpp:439-459; [None]: a missing key of the map (the code would insert the cell (0, 0)) *)
Definition permutation_values (global_indices : seq nat) (delta : F) (c : cycles [eqType of cell]) (gi : nat) : option (seq F) :=
  omapM (fun j =>
    olet k <- am_get (cy_mapping c) (gi, j);
    Some (delta ^+ (index k.1 global_indices) * omega ^+ k.2)) (iota 0 rows).
Definition permutation_polynomials (global_indices : seq nat) (delta : F) (c : cycles [eqType of cell]) : option (seq {poly F}) :=
  omapM (fun gi => omap dfs_of_values (permutation_values global_indices delta c gi)) global_indices.
End BasicDomain.

(** preprocessor.hpp:78-87; [None]: division by zero *)
Definition permutation_partitions_num (permutation_size max_quotient_chunks : nat) : option nat :=
  if permutation_size == 0%N then Some 0%N else
  if max_quotient_chunks == 0%N then Some 1%N else
  if max_quotient_chunks == 1%N then None else
  let m := (max_quotient_chunks - 1)%N in
  Some (if (permutation_size %% m == 0)%N then permutation_size %/ m else permutation_size %/ m + 1)%N.

Section Argument.
Variables (F : fieldType) (omega : F) (rows : nat).
(** the transcript (see Model/Transcript.v) *)
Variables (T : Type) (challenge : T -> F * T).
Notation dfs_of_values := (dfs_of_values omega rows).

(** [n] challenges one after the other *)
Fixpoint draw (n : nat) (tr : T) : seq F * T :=
  if n is n'.+1 then let (c, tr) := challenge tr in let (cs, tr) := draw n' tr in (c :: cs, tr) else ([::], tr).

(** permutation_argument.hpp:134-149: products of [max_quotient_chunks - 1] consecutive factors *)
Definition chunk_step (R : ringType) (max_quotient_chunks : nat) (st : seq R * seq R) (g : R) : seq R * seq R :=
  let factors := rcons st.2 g in
  if (max_quotient_chunks != 0%N) && (size factors == max_quotient_chunks - 1)%N
  then (rcons st.1 (\prod_(x <- factors) x), [::]) else (st.1, factors).
Definition chunk_products (R : ringType) (max_quotient_chunks : nat) (gs : seq R) : seq R :=
  let st := foldl (chunk_step max_quotient_chunks) ([::], [::]) gs in
  if size st.2 != 0%N then rcons st.1 (\prod_(x <- st.2) x) else st.1.

(** The inputs that the prover takes from the preprocessed data. *)
Record perm_data := PermData { pd_S_id : seq {poly F}; pd_S_sigma : seq {poly F}; pd_q_last : {poly F}; pd_q_blind : {poly F};
  pd_lagrange_0 : {poly F}; pd_max_quotient_chunks : nat; pd_permutation_parts : nat; pd_usable_rows : nat }.

(** 104-119: [S * beta + gamma + column] *)
Definition perm_factors (S cols : seq {poly F}) (beta gamma : F) : seq {poly F} :=
  [seq beta *: sc.1 + gamma%:P + sc.2 | sc <- zip S cols].

(** 121-131: the grand product *)
Fixpoint grand_product (g_v h_v : seq {poly F}) (v : F) (pts : seq F) : seq F :=
  if pts is x :: pts' then
    let nom := foldl (fun a (g : {poly F}) => a * g.[x]) 1 g_v in
    let denom := foldl (fun a (h : {poly F}) => a * h.[x]) 1 h_v in
    let v' := v * nom * denom^-1 in v' :: grand_product g_v h_v v' pts'
  else [::].
Definition V_P_values (g_v h_v : seq {poly F}) : seq F :=
  1 :: grand_product g_v h_v 1 [seq omega ^+ j | j <- iota 0 (rows - 1)].

(** 186-198: the intermediate products of the parts but the last. [previous] is a vector of values; the rows from
    [usable] on keep the values of the previous [current_poly], that is of V_P. *)
Fixpoint perm_parts (usable : nat) (gs hs : seq {poly F}) (previous : seq F) : seq (seq F) :=
  match gs, hs with
  | g :: gs', h :: hs' =>
    let current := [seq (if (j < usable)%N then nth 0 previous j * g.[omega ^+ j] * (h.[omega ^+ j])^-1 else nth 0 previous j)
      | j <- iota 0 (size previous)] in
    current :: perm_parts usable gs' hs' current
  | _, _ => [::]
  end.

(** 186-204: the sum of the parts of F[1] *)
Fixpoint perm_sum (alphas : seq F) (gs hs : seq {poly F}) (parts : seq {poly F}) (previous last : {poly F}) : option {poly F} :=
  match alphas, gs, hs, parts with
  | a :: alphas', g :: gs', h :: hs', current :: parts' =>
    olet rest <- perm_sum alphas' gs' hs' parts' current last;
    Some (a *: (previous * g - current * h) + rest)
  | [::], g :: _, h :: _, _ => Some (previous * g - last * h)
  | _, _, _, _ => None
  end.

(** 70-224 [prove_eval]: the constraint polynomials, the polynomials appended to the permutation batch, the transcript.
    [cols] are [column_polynomials[global_indices[i]]]. [None]: an assertion fails or an index is out of range. *)
Definition perm_prove_eval (pd : perm_data) (cols : seq {poly F}) (tr : T) : option (seq {poly F} * seq {poly F} * T) :=
  let (beta, tr) := challenge tr in
  let (gamma, tr) := challenge tr in
  oguard (size cols == size (pd_S_id pd)) && (size cols == size (pd_S_sigma pd));
  let g_v := perm_factors (pd_S_id pd) cols beta gamma in
  let h_v := perm_factors (pd_S_sigma pd) cols beta gamma in
  let vp := V_P_values g_v h_v in
  let V_P := dfs_of_values vp in
  let gs := chunk_products (pd_max_quotient_chunks pd) g_v in
  let hs := chunk_products (pd_max_quotient_chunks pd) h_v in
  oguard size gs == pd_permutation_parts pd;
  oguard pd_permutation_parts pd != 0%N;
  let V_P_shifted := polynomial_shift omega V_P 1 in
  let F0 := (1 - V_P) * pd_lagrange_0 pd in
  let (alphas, tr) := draw (pd_permutation_parts pd - 1) tr in
  let F2 := (V_P - 1) * V_P * pd_q_last pd in
  if pd_permutation_parts pd == 1%N then
    olet g <- vget gs 0; olet h <- vget hs 0;
    let F1 := (1 - pd_q_last pd - pd_q_blind pd) * (V_P_shifted * h - V_P * g) in
    Some ([:: F0; F1; F2], [:: V_P], tr)
  else
    let parts := [seq dfs_of_values v | v <- perm_parts (pd_usable_rows pd) (take (pd_permutation_parts pd - 1) gs)
      (take (pd_permutation_parts pd - 1) hs) vp] in
    olet s <- perm_sum alphas gs hs parts V_P V_P_shifted;
    let F1 := s * (pd_q_last pd + pd_q_blind pd - 1) in
    Some ([:: F0; F1; F2], V_P :: parts, tr).

(** ** The verifier *)
(** 247-281: running products *)
Definition vchunk_step (max_quotient_chunks : nat) (st : seq F * F * nat) (g : F) : seq F * F * nat :=
  let: (gs, acc, current_size) := st in
  let acc := acc * g in
  let current_size := current_size.+1 in
  if (max_quotient_chunks != 0%N) && (current_size == max_quotient_chunks - 1)%N then (rcons gs acc, 1, 0%N) else (gs, acc, current_size).
Definition vchunk_products (max_quotient_chunks : nat) (gs : seq F) : seq F :=
  let: (r, acc, current_size) := foldl (vchunk_step max_quotient_chunks) ([::], 1, 0%N) gs in
  if current_size != 0%N then rcons r acc else r.

(** 303-321 *)
Fixpoint perm_vsum (alphas : seq F) (gs hs : seq F) (parts : seq F) (previous last : F) : option F :=
  match alphas, gs, hs, parts with
  | a :: alphas', g :: gs', h :: hs', current :: parts' =>
    olet rest <- perm_vsum alphas' gs' hs' parts' current last;
    Some (a * (previous * g - current * h) + rest)
  | [::], g :: _, h :: _, _ => Some (previous * g - last * h)
  | _, _, _, _ => None
  end.

(** 226-332 [verify_eval]. [q_last] and [q_blind] are [special_selector_values[1]] and [[2]]; [lagrange_0] is the
    polynomial of the common data. *)
Definition perm_verify_eval (max_quotient_chunks permutation_parts : nat) (lagrange_0 : {poly F}) (S_id S_sigma : seq F)
  (q_last q_blind y : F) (cols : seq F) (vp vp_shifted : F) (partitions : seq F) (tr : T) : option (seq F * T) :=
  let (beta, tr) := challenge tr in
  let (gamma, tr) := challenge tr in
  oguard (size cols == size S_id) && (size cols == size S_sigma);
  let gs := vchunk_products max_quotient_chunks [seq sc.1 * beta + (sc.2 + gamma) | sc <- zip S_id cols] in
  let hs := vchunk_products max_quotient_chunks [seq sc.1 * beta + (sc.2 + gamma) | sc <- zip S_sigma cols] in
  let F0 := lagrange_0.[y] * (1 - vp) in
  oguard permutation_parts != 0%N;
  let (alphas, tr) := draw (permutation_parts - 1) tr in
  oguard size alphas == size partitions;
  let F2 := q_last * (vp ^+ 2 - vp) in
  if permutation_parts == 1%N then
    olet g <- vget gs 0; olet h <- vget hs 0;
    Some ([:: F0; (h * vp_shifted - g * vp) * (1 - q_last - q_blind); F2], tr)
  else
    olet s <- perm_vsum alphas gs hs partitions vp vp_shifted;
    Some ([:: F0; s * (q_last + q_blind - 1); F2], tr).
End Argument.
