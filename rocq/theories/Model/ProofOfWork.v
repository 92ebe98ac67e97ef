(** Model of commitments/detail/polynomial/proof_of_work.hpp, and of [int_challenge] of the Poseidon transcript
    (transcript/fiat_shamir.hpp:280-299). Unsigned integers of [w] bits are numbers below 2^w. *)
From Coq Require Import NArith.
From mathcomp Require Import all_ssreflect.
From Verif.Model Require Import Base OrderedMap.
Set Implicit Arguments.
Unset Strict Implicit.
Unset Printing Implicit Defensive.

(** ** Grinding with an integer nonce *)
Section Pow.
(** the transcript: absorbing bytes and reading an integer *)
Variables (T : Type) (absorb : T -> seq N -> T) (int_challenge : T -> N * T).
(** bits of [OutType] *)
Variable w : N.

(** proof_of_work.hpp:54-57, 72-75: the four low bytes, most significant first *)
Definition pow_bytes (n : N) : seq N :=
  [:: N.modulo (N.shiftr (N.land n 4278190080%num) 24%num) 256%num; N.modulo (N.shiftr (N.land n 16711680%num) 16%num) 256%num;
      N.modulo (N.shiftr (N.land n 65280%num) 8%num) 256%num; N.modulo (N.land n 255%num) 256%num].

(** 52-64: the loop. The code loops until a nonce is found; [fuel] bounds the number of rounds ([None]: not finished). *)
Fixpoint pow_loop (fuel : nat) (tr : T) (mask nonce : N) : option N :=
  if fuel is fuel'.+1 then
    let tmp := absorb tr (pow_bytes nonce) in
    let (result, _) := int_challenge tmp in
    if N.eqb (N.land result mask) 0%num then Some nonce
    else pow_loop fuel' tr mask (N.modulo (N.add nonce 1%num) (N.pow 2%num w))
  else None.
(** 47-68 [generate]; [start] is the value of [std::rand()] *)
Definition pow_generate (fuel : nat) (tr : T) (start mask : N) : option (N * T) :=
  olet nonce <- pow_loop fuel tr mask (N.modulo start (N.pow 2%num w));
  let tr := absorb tr (pow_bytes nonce) in
  let (_, tr) := int_challenge tr in
  Some (nonce, tr).
(** 70-79 [verify] *)
Definition pow_verify (tr : T) (nonce mask : N) : bool * T :=
  let tr := absorb tr (pow_bytes nonce) in
  let (result, tr) := int_challenge tr in
  (N.eqb (N.land result mask) 0%num, tr).
End Pow.

(** ** Grinding with a field element *)
Section FieldPow.
Variables (T K : Type) (absorb : T -> K -> T) (challenge : T -> K * T) (data : K -> N) (succ : K -> K).
Variable modulus_bits : N.

(** 100-103, 120-123 *)
Definition grinding_mask (bits : N) : N :=
  if N.ltb 0%num bits then N.shiftl (N.sub (N.shiftl 1%num bits) 1%num) (N.sub modulus_bits bits) else 0%num.
(** 105-112 *)
Fixpoint field_pow_loop (fuel : nat) (tr : T) (mask : N) (nonce : K) : option K :=
  if fuel is fuel'.+1 then
    let (c, _) := challenge (absorb tr nonce) in
    if N.eqb (N.land (data c) mask) 0%num then Some nonce else field_pow_loop fuel' tr mask (succ nonce)
  else None.
(** 94-116 *)
Definition field_pow_generate (fuel : nat) (tr : T) (start : K) (bits : N) : option (K * T) :=
  olet nonce <- field_pow_loop fuel tr (grinding_mask bits) start;
  let (_, tr) := challenge (absorb tr nonce) in
  Some (nonce, tr).
(** 118-127 *)
Definition field_pow_verify (tr : T) (nonce : K) (bits : N) : bool * T :=
  let (c, tr) := challenge (absorb tr nonce) in
  (N.eqb (N.land (data c) (grinding_mask bits)) 0%num, tr).
End FieldPow.

(** ** Integer challenges of the Poseidon transcript *)
(** fiat_shamir.hpp:284-298. [size] is [sizeof(Integral)], an even number of bytes; [fuel] bounds the rounds. *)
Fixpoint poseidon_int_loop (fuel : nat) (bits c result factor bytes_to_fill : N) : N :=
  if fuel is fuel'.+1 then
    if N.ltb 0%num c && ~~ N.eqb bytes_to_fill 0%num then
      let last_byte := N.modulo c 256%num in
      poseidon_int_loop fuel' bits (N.div c 256%num)
        (N.modulo (N.add result (N.mul factor last_byte)) (N.pow 2%num bits))
        (N.modulo (N.mul factor 256%num) (N.pow 2%num bits)) (N.sub bytes_to_fill 2%num)
    else result
  else result.
Definition poseidon_int_of (size c : N) : N :=
  poseidon_int_loop (N.to_nat size) (N.mul 8%num size) c 0%num 1%num size.
(** 281-299 [int_challenge]; [squeeze] is the sponge's, its output read as an integer *)
Definition poseidon_int_challenge (T : Type) (squeeze : T -> N * T) (size : N) (tr : T) : N * T :=
  let (c, tr) := squeeze tr in (poseidon_int_of size c, tr).
