(** Model of the quotient polynomial of snark/systems/plonk/placeholder/prover.hpp (53-69, 219-283) and of its
    recombination in verifier.hpp (383-398). A [polynomial] is its coefficient vector; sizes are unbounded naturals. *)
From mathcomp Require Import all_ssreflect all_algebra.
From Verif.Model Require Import Base OrderedMap.
Set Implicit Arguments.
Unset Strict Implicit.
Unset Printing Implicit Defensive.
Import GRing.Theory.
Local Open Scope ring_scope.

Section Quotient.
Variable F : fieldType.

(** prover.hpp:60-67 the loop of [split_polynomial] at index [i] ([fuel] is at least the number of rounds left) *)
Fixpoint split_loop (fuel : nat) (f : seq F) (chunk_size i : nat) : seq (seq F) :=
  if fuel is fuel'.+1 then
    if (i < size f)%N then
      let last := minn (size f) (i + chunk_size) in
      take (last - i) (drop i f) :: split_loop fuel' f chunk_size (i + chunk_size)
    else [::]
  else [::].
(** prover.hpp:53-69 [split_polynomial] *)
Definition split_polynomial (f : seq F) (max_degree : nat) : seq (seq F) :=
  let chunk_size := max_degree.+1 in split_loop (size f) f chunk_size 0.

(** prover.hpp:227-241 the number of chunks that are committed *)
Definition split_polynomial_size (rows identity_polys lookup_poly_degree_bound max_gates_degree max_quotient_chunks : nat) : nat :=
  let s := maxn ((identity_polys + 2) * (rows - 1)) ((lookup_poly_degree_bound + 1) * (rows - 1)) in
  let s := maxn s ((max_gates_degree + 1) * (rows - 1)) in
  let s := if (s %% rows)%N != 0%N then (s %/ rows + 1)%N else (s %/ rows)%N in
  if (max_quotient_chunks != 0%N) && (s > max_quotient_chunks)%N then max_quotient_chunks else s.

(** prover.hpp:250-256: the first [size chunks] entries of [split_size] zero polynomials are overwritten; [None] is a
    write past the end of the vector. *)
Definition quotient_chunks (f : seq F) (rows split_size : nat) : option (seq {poly F}) :=
  let chunks := split_polynomial f (rows - 1) in
  if (size chunks <= split_size)%N then
    Some ([seq Poly c | c <- chunks] ++ nseq (split_size - size chunks) 0)
  else None.

(** The coefficient vector of a polynomial: crypto3-math keeps one zero coefficient for the zero polynomial. *)
Definition coefficients (p : {poly F}) : seq F := if p == 0 then [:: 0] else polyseq p.

(** prover.hpp:260-283 [quotient_polynomial]; [Fs] are the eight constraint polynomials *)
Definition quotient_polynomial (alphas : seq F) (Fs : seq {poly F}) (Z : {poly F}) : {poly F} :=
  (foldl (fun acc aF => acc + (if aF.2 == 0 then aF.2 else aF.1 *: aF.2)) 0 (zip alphas Fs)) %/ Z.

(** verifier.hpp:388-392: recombination of the opened values of the chunks *)
Definition recombine (rows : nat) (y : F) (ts : seq F) : F :=
  foldl (fun acc it => acc + it.2 * y ^+ (rows * it.1)%N) 0 (zip (iota 0 (size ts)) ts).
End Quotient.
