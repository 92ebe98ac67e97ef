(** The part of crypto3-math that crypto3-zk calls: evaluation domains and coefficient vectors.
    These functions live outside /repo (crypto3-math); they are modelled by their documented meaning:
    a domain is the list of its points, [fft]/[inverse_fft] are exact evaluation/interpolation. *)
From mathcomp Require Import all_ssreflect all_algebra.
From Verif.Model Require Import Base.
Set Implicit Arguments.
Unset Strict Implicit.
Unset Printing Implicit Defensive.
Import GRing.Theory.
Local Open Scope ring_scope.

Section Domain.
Variable F : fieldType.

(** Value of a coefficient vector (lowest degree first) at a point. *)
Fixpoint peval (s : seq F) (x : F) : F := if s is a :: s' then a + x * peval s' x else 0.

(** Coefficient-wise sum of two coefficient vectors (the longer one's tail is kept). *)
Fixpoint padd (s t : seq F) : seq F :=
  match s, t with
  | a :: s', b :: t' => (a + b) :: padd s' t'
  | [::], _ => t
  | _, [::] => s
  end.

Definition pscale (c : F) (s : seq F) : seq F := [seq c * a | a <- s].

(** Multiplication by (X - c). *)
Definition pmulXc (c : F) (s : seq F) : seq F := padd (0 :: s) (pscale (- c) s).

(** Coefficients and value of the vanishing polynomial [\prod_(s <- pts) (X - s)]
    (evaluation_domain::compute_vanishing_polynomial). *)
Definition zcoefs (pts : seq F) : seq F := foldr pmulXc [:: 1] pts.
Definition zeval (pts : seq F) (t : F) : F := foldr (fun s acc => (t - s) * acc) 1 pts.

(** All points but the i-th. *)
Definition others (pts : seq F) (i : nat) : seq F := take i pts ++ drop i.+1 pts.

(** Lagrange basis: value at [t], and coefficients.
    (evaluation_domain::evaluate_all_lagrange_polynomials returns all the values) *)
Definition lagrange_eval (pts : seq F) (t : F) (i : nat) : F :=
  zeval (others pts i) t / zeval (others pts i) (nth 0 pts i).
Definition lagrange_coefs (pts : seq F) (i : nat) : seq F :=
  pscale (zeval (others pts i) (nth 0 pts i))^-1 (zcoefs (others pts i)).

Definition evaluate_all_lagrange_polynomials (pts : seq F) (t : F) : seq F :=
  [seq lagrange_eval pts t i | i <- iota 0 (size pts)].

(** evaluation_domain::fft: coefficient vector of size m to the values on the points. *)
Definition fft (pts : seq F) (a : seq F) : seq F := [seq peval a x | x <- pts].

(** evaluation_domain::inverse_fft: values on the points to the m coefficients of the interpolation. *)
Definition inverse_fft (pts : seq F) (v : seq F) : seq F :=
  foldr padd (nseq (size pts) 0)
    [seq pscale (nth 0 v i) (lagrange_coefs pts i) | i <- iota 0 (size pts)].

(** math::multiply_by_coset: a[i] *= g^i. *)
Fixpoint multiply_by_coset_from (u : F) (a : seq F) (g : F) : seq F :=
  if a is x :: a' then x * u :: multiply_by_coset_from (u * g) a' g else [::].
Definition multiply_by_coset (a : seq F) (g : F) : seq F := multiply_by_coset_from 1 a g.

(** evaluation_domain::add_poly_z: H += c * Z, coefficient-wise (H has m+1 entries). *)
Definition add_poly_z (pts : seq F) (c : F) (H : seq F) : seq F := padd H (pscale c (zcoefs pts)).

(** evaluation_domain::divide_by_z_on_coset: divides the i-th value by Z at the i-th coset point. *)
Definition divide_by_z_on_coset (pts : seq F) (g : F) (v : seq F) : seq F :=
  [seq nth 0 v i / zeval pts (g * nth 0 pts i) | i <- iota 0 (size pts)].

(** 1, t, ..., t^n (the [ti *= t] loops). *)
Fixpoint powers_from (ti t : F) (n : nat) : seq F :=
  if n is n'.+1 then ti :: powers_from (ti * t) t n' else [::].
Definition powers (t : F) (n : nat) : seq F := powers_from 1 t n.

(** algebra::inner_product over [n] entries. *)
Fixpoint inner_product (a b : seq F) : F :=
  match a, b with x :: a', y :: b' => x * y + inner_product a' b' | _, _ => 0 end.

(** A sequence of [v[i] += c] statements; [None] when some index is out of range (UB). *)
Definition run_adds (v : seq F) (us : seq (nat * F)) : option (seq F) :=
  ofold (fun v (u : nat * F) => obnd (vget v u.1) (fun x => vset v u.1 (x + u.2))) v us.

(** A sequence of [v[i] = c] statements. *)
Definition run_sets (v : seq F) (us : seq (nat * F)) : option (seq F) :=
  ofold (fun v (u : nat * F) => vset v u.1 u.2) v us.

(** [std::map<size_t, F>] as an association list: [m[k] += c] and [m[k] = c]. *)
Fixpoint map_add (m : seq (nat * F)) (k : nat) (c : F) : seq (nat * F) :=
  if m is e :: m' then if e.1 == k then (k, e.2 + c) :: m' else e :: map_add m' k c
  else [:: (k, 0 + c)].
Fixpoint map_set (m : seq (nat * F)) (k : nat) (c : F) : seq (nat * F) :=
  if m is e :: m' then if e.1 == k then (k, c) :: m' else e :: map_set m' k c
  else [:: (k, c)].

(** Sequences of [V[i][k] += c] / [V[i][k] = c] on a vector of maps. *)
Definition run_map_adds (v : seq (seq (nat * F))) (us : seq (nat * nat * F)) :=
  ofold (fun v (u : nat * nat * F) => obnd (vget v u.1.1) (fun m => vset v u.1.1 (map_add m u.1.2 u.2))) v us.
Definition run_map_sets (v : seq (seq (nat * F))) (us : seq (nat * nat * F)) :=
  ofold (fun v (u : nat * nat * F) => obnd (vget v u.1.1) (fun m => vset v u.1.1 (map_set m u.1.2 u.2))) v us.

(** The loops [At[i] += u[el.first] * el.second] of {qap,sap,ssp}_instance::is_satisfied. *)
Definition eval_maps (u : seq F) (v : seq (seq (nat * F))) (n : nat) : option (seq F) :=
  run_adds (nseq n 0)
    (flatten [seq [seq (i, nth 0 u el.1 * el.2) | el <- nth [::] v i] | i <- iota 0 n]).

End Domain.

(** Evaluate a list of possibly failing computations in order. *)
Fixpoint oseq (T : Type) (l : seq (option T)) : option (seq T) :=
  if l is o :: l' then obnd o (fun x => omap (cons x) (oseq l')) else Some [::].
