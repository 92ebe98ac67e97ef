(** Model of commitments/detail/polynomial/fold_polynomial.hpp. Polynomials in coefficient form are their coefficient
    vectors (math::polynomial), whose [degree()] is the size minus one; polynomials in evaluation form are the vectors of
    their values on the domain. *)
From mathcomp Require Import all_ssreflect all_algebra.
From Verif.Model Require Import Base OrderedMap.
Set Implicit Arguments.
Unset Strict Implicit.
Unset Printing Implicit Defensive.
Import GRing.Theory.
Local Open Scope ring_scope.

Section Fold.
Variable F : fieldType.

(** fold_polynomial.hpp:48-66. [None]: the empty vector (its degree wraps around), or an index out of range. *)
Definition fold_coefficients (f : seq F) (alpha : F) : option (seq F) :=
  oguard f != [::];
  let d := (size f).-1 in
  let fd := if (d %% 2 == 0)%N then (rcons f 0, d.+1) else (f, d) in
  omapM (fun index => olet a <- vget fd.1 (2 * index)%N; olet b <- vget fd.1 (2 * index + 1)%N; Some (a + alpha * b))
    (iota 0 (fd.2 %/ 2 + 1)).

(** fold_polynomial.hpp:68-93; [dom] is the list of the domain's elements *)
Fixpoint fold_dfs_loop (f : seq F) (half : nat) (omega_inversed acc : F) (idx : seq nat) : option (seq F) :=
  if idx is i :: idx' then
    olet a <- vget f i; olet b <- vget f (half + i);
    omap (cons (2%:R^-1 * ((1 + acc) * a + (1 - acc) * b))) (fold_dfs_loop f half omega_inversed (acc * omega_inversed) idx')
  else Some [::].
Definition fold_dfs (f : seq F) (alpha : F) (dom : seq F) : option (seq F) :=
  olet omega_inversed <- vget dom (size dom - 1);
  fold_dfs_loop f (size dom %/ 2) omega_inversed alpha (iota 0 (size dom %/ 2)).
End Fold.
