(** Model of snark/systems/plonk/pickles: expr.hpp, permutation.hpp, constraints.hpp, [combine] of proof.hpp, and of oracles.hpp
    [prev_chal_evals], the evaluations of the public polynomial and the permutation part of [ft_eval0]. [None]: a failed assertion
    or undefined behaviour (an index out of range). *)
From mathcomp Require Import all_ssreflect all_algebra.
From Verif.Model Require Import Base OrderedMap Domain KimchiPedersen.
Set Implicit Arguments.
Unset Strict Implicit.
Unset Printing Implicit Defensive.
Import GRing.Theory.
Local Open Scope ring_scope.

(** proof.hpp:41-83; [V]: the type of the values *)
Record evaluations (V : Type) := Evaluations { ev_w : seq V; ev_zc : V; ev_s : seq V; ev_sorted : seq V; ev_aggreg : V; ev_table : V;
  ev_runtime : V; ev_runtime_used : bool; ev_lookup_used : bool; ev_generic : V; ev_poseidon : V }.
(** detail.hpp:41-57 *)
Record constants (F : Type) := Constants { c_alpha : F; c_beta : F; c_gamma : F; c_joint_combiner : F; c_endo : F; c_mds : seq (seq F) }.
(** detail.hpp:59-91; the other gates are [GOther] *)
Inductive gate_type := GGeneric | GPoseidon | GOther (n : nat).
(** expr.hpp:31-59 *)
Inductive column := CWitness (i : nat) | CZ | CLookupSorted (i : nat) | CLookupAggreg | CLookupTable | CLookupKindIndex | CLookupRuntimeSelector
  | CLookupRuntimeTable | CIndex (g : gate_type) | CCoefficient (i : nat).
(** expr.hpp:106-124 and 131-138; the row of a cell is 0 (Curr) or 1 (Next) *)
Inductive token (F : Type) := TAlpha | TBeta | TGamma | TJointCombiner | TEndoCoefficient | TMds (i j : nat) | TLiteral (x : F) | TCell (row : nat) (c : column)
  | TDup | TPow (n : nat) | TAdd | TMul | TSub | TVanishesOnLast4Rows | TUnnormalizedLagrangeBasis (i : int) | TStore | TLoad (k : nat).

Section Expr.
Variable F : fieldType.
(** The domain: the powers of [omega] below [n] *)
Variables (n : nat) (omega : F).

(** expr.hpp:14-20; the vanishing polynomial of a radix-2 domain is X^n - 1 *)
Definition unnormalized_lagrange_basis (i : int) (pt : F) : F :=
  let omega_i := match i with Posz k => omega ^+ k | Negz k => (omega ^+ k.+1)^-1 end in (pt ^+ n - 1) / (pt - omega_i).
(** permutation.hpp:10-19; ZK_ROWS = 3 *)
Definition eval_vanishes_on_last_4_rows (x : F) : F :=
  let w4 := omega ^+ (n - (3 + 1)) in let w3 := omega * w4 in let w2 := omega * w3 in let w1 := omega * w2 in
  (x - w1) * (x - w2) * (x - w3) * (x - w4).
(** expr.hpp:75-104 *)
Definition variable_evaluate (row : nat) (c : column) (evals : seq (evaluations F)) : option F :=
  olet e <- vget evals row;
  match c with
  | CWitness i => vget (ev_w e) i
  | CZ => Some (ev_zc e)
  | CLookupSorted i => vget (ev_sorted e) i
  | CLookupAggreg => Some (ev_aggreg e)
  | CLookupTable => Some (ev_table e)
  | CLookupRuntimeTable => Some (ev_runtime e)
  | CIndex GPoseidon => Some (ev_poseidon e)
  | CIndex GGeneric => Some (ev_generic e)
  | _ => Some 0
  end.

Variables (pt : F) (evals : seq (evaluations F)) (c : constants F).
(** expr.hpp:160-229: one token; the stack with its back first, and the cache *)
Definition polish_step (st : seq F * seq F) (t : token F) : option (seq F * seq F) :=
  let push x := Some (x :: st.1, st.2) in
  match t with
  | TAlpha => push (c_alpha c)
  | TBeta => push (c_beta c)
  | TGamma => push (c_gamma c)
  | TJointCombiner => push (c_joint_combiner c)
  | TEndoCoefficient => push (c_endo c)
  | TMds i j => olet r <- vget (c_mds c) i; olet x <- vget r j; push x
  | TVanishesOnLast4Rows => push (eval_vanishes_on_last_4_rows pt)
  | TUnnormalizedLagrangeBasis i => push (unnormalized_lagrange_basis i pt)
  | TLiteral x => push x
  | TDup => if st.1 is x :: _ then push x else None
  | TCell row col => olet x <- variable_evaluate row col evals; push x
  | TPow k => if st.1 is x :: s then Some (x ^+ k :: s, st.2) else None
  | TAdd => if st.1 is y :: x :: s then Some (x + y :: s, st.2) else None
  | TMul => if st.1 is y :: x :: s then Some (x * y :: s, st.2) else None
  | TSub => if st.1 is y :: x :: s then Some (x - y :: s, st.2) else None
  | TStore => if st.1 is x :: _ then Some (st.1, rcons st.2 x) else None
  | TLoad k => olet x <- vget st.2 k; push x
  end.
(** expr.hpp:154-233 [evaluate] *)
Definition polish_evaluate (toks : seq (token F)) : option F :=
  olet st <- ofold polish_step ([::], [::]) toks;
  if st.1 is [:: x] then Some x else None.
End Expr.

Section Parts.
Variable F : fieldType.
(** proof.hpp:88-133 [combine]. The vector [lookup_combined.sorted] is empty when its elements are assigned (120-123). The other members of
    a default lookup evaluation are 0. *)
Definition combine (e : evaluations (seq F)) (pt : F) : option (evaluations F) :=
  let v (x : seq F) := peval x pt in
  oguard ~~ ev_lookup_used e || nilp (ev_sorted e);
  let u (x : seq F) : F := if ev_lookup_used e then v x else 0 in
  Some (Evaluations (map v (ev_w e)) (v (ev_zc e)) (map v (ev_s e)) [::] (u (ev_aggreg e)) (u (ev_table e))
    (if ev_runtime_used e then u (ev_runtime e) else 0) false false (v (ev_generic e)) (v (ev_poseidon e))).

(** oracles.hpp:99-133 [prev_chal_evals], for the challenges [chals] and one point with its power *)
Definition prev_chal_eval (max_poly_size : nat) (chals : seq F) (x power : F) : seq F :=
  let full := b_poly chals x in let b_len := (2 ^ size chals)%N in
  if max_poly_size == b_len then [:: full]
  else
    let b := b_poly_coefficients chals in
    let diff := (foldl (fun (st : F * F) j => (st.1 + st.2 * nth 0 b j, st.2 * x)) (0, 1) (iota max_poly_size (b_len - max_poly_size))).1 in
    [:: full - diff * power; diff].

(** [v[i].push_back(x)] *)
Definition push_at (v : seq (seq F)) (i : nat) (x : F) : option (seq (seq F)) :=
  olet r <- vget v i; Some (set_nth [::] v i (rcons r x)).
(** oracles.hpp:251-302: the evaluations of the public polynomial, from [zeta], [omega], the size of the domain *)
Definition public_evaluations (pub : seq F) (omega zeta : F) (n : nat) : option (seq (seq F)) :=
  if pub is [::] then Some [:: [::]; [::]]
  else
    let tmp := foldl (fun t i => t - nth 0 pub i * (zeta - omega ^+ i)^-1 * omega ^+ i) 0 (iota 0 (size pub)) in
    olet p <- push_at [::] 0 (tmp * (zeta ^+ n - 1) * (n%:R)^-1);
    push_at p 1 (tmp * ((zeta * omega) ^+ n - 1) * (n%:R)^-1).

(** constraints.hpp:20-29 [perm_scalars] *)
Definition perm_scalars (e : seq (evaluations F)) (beta gamma : F) (alphas : seq F) (zkp : F) : option F :=
  olet e0 <- vget e 0; olet e1 <- vget e 1; olet a <- vget alphas 0;
  Some (- foldl (fun res i => res * (gamma + beta * nth 0 (ev_s e0) i + nth 0 (ev_w e0) i)) (ev_zc e1 * beta * a * zkp)
    (iota 0 (minn (size (ev_w e0)) (size (ev_s e0))))).
(** constraints.hpp:31-46 [generic_gate] *)
Definition generic_gate (res : seq F) (alpha_pow : F) (offset : nat) (generic_zeta : F) (w : seq F) : option (seq F) :=
  let ag := alpha_pow * generic_zeta in
  olet w0 <- vget w offset; olet w1 <- vget w offset.+1; olet w2 <- vget w offset.+2;
  Some (res ++ [:: ag * w0; ag * w1; ag * w2; ag * w0 * w1; ag]).
(** constraints.hpp:47-57 [gnrc_scalars] *)
Definition gnrc_scalars (alphas w : seq F) (generic_zeta : F) : option (seq F) :=
  olet a0 <- vget alphas 0; olet a1 <- vget alphas 1;
  olet r <- generic_gate [::] a0 0 generic_zeta w; generic_gate r a1 3 generic_zeta w.
(** oracles.hpp:363-393: [ft_eval0] before the constant term; [p]: the evaluation of the public polynomial, [iw]: [index.w] *)
Definition ft_permutation (evals : seq (evaluations F)) (beta gamma zeta zkp iw p : F) (n : nat) (alphas shift : seq F) : option F :=
  olet e0 <- vget evals 0; olet e1 <- vget evals 1;
  olet a0 <- vget alphas 0; olet a1 <- vget alphas 1; olet a2 <- vget alphas 2; olet w6 <- vget (ev_w e0) (7 - 1);
  let ft := foldl (fun ft i => ft * (beta * nth 0 (ev_s e0) i + nth 0 (ev_w e0) i + gamma)) ((w6 + gamma) * ev_zc e1 * a0 * zkp) (iota 0 (size (ev_s e0))) in
  let ft := ft - p in
  let tmp := foldl (fun t i => t * (gamma + beta * zeta * nth 0 shift i + nth 0 (ev_w e0) i)) (a0 * zkp * ev_zc e0)
    (iota 0 (minn (size (ev_w e0)) (size shift))) in
  let ft := ft - tmp in
  let numerator := ((zeta ^+ n - 1) * a1 * (zeta - iw) + (zeta ^+ n - 1) * a2 * (zeta - 1)) * (1 - ev_zc e0) in
  let denominator := ((zeta - iw) * (zeta - 1))^-1 in
  Some (ft + numerator * denominator).
End Parts.
