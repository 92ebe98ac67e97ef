(** Model of include/nil/crypto3/zk/snark/arithmetization/plonk/variable.hpp: the variables of PLONK constraints. *)
From mathcomp Require Import all_ssreflect all_algebra.
From Verif.Model Require Import Base.
Set Implicit Arguments.
Unset Strict Implicit.
Unset Printing Implicit Defensive.

(** variable.hpp:71-73 *)
Inductive column_type := CWitness | CPublicInput | CConstant | CSelector | CUninitialized.
Definition ct_code (t : column_type) : nat :=
  match t with CWitness => 0 | CPublicInput => 1 | CConstant => 2 | CSelector => 3 | CUninitialized => 4 end.
Definition ct_of_code (n : nat) : column_type :=
  match n with 0 => CWitness | 1 => CPublicInput | 2 => CConstant | 3 => CSelector | _ => CUninitialized end.
Lemma ct_codeK : cancel ct_code ct_of_code. Proof. by case. Qed.
Definition ct_eqMixin := CanEqMixin ct_codeK.
Canonical ct_eqType := Eval hnf in EqType column_type ct_eqMixin.

(** variable.hpp:78-81; [rotation] is an [int32_t], here an unbounded integer *)
Record plonk_variable := PlonkVariable { pv_index : nat; pv_rotation : int; pv_relative : bool; pv_type : column_type }.
Definition pv_tuple v := (pv_index v, pv_rotation v, pv_relative v, pv_type v).
Definition pv_of_tuple (t : nat * int * bool * column_type) := PlonkVariable t.1.1.1 t.1.1.2 t.1.2 t.2.
Lemma pv_tupleK : cancel pv_tuple pv_of_tuple. Proof. by case. Qed.
Definition pv_eqMixin := CanEqMixin pv_tupleK.
Canonical pv_eqType := Eval hnf in EqType plonk_variable pv_eqMixin.

(** variable.hpp:123-126 [operator==] *)
Definition pv_eqb (a b : plonk_variable) : bool :=
  [&& pv_index a == pv_index b, pv_rotation a == pv_rotation b, pv_type a == pv_type b & pv_relative a == pv_relative b].

(** variable.hpp:132-140 [operator<] *)
Definition pv_ltb (a b : plonk_variable) : bool :=
  if pv_index a != pv_index b then (pv_index a < pv_index b)%N
  else if pv_rotation a != pv_rotation b then (pv_rotation a < pv_rotation b)%R
  else if pv_type a != pv_type b then (ct_code (pv_type a) < ct_code (pv_type b))%N
  else (pv_relative a < pv_relative b)%N.

(** variable.hpp:142-144 [operator>] *)
Definition pv_gtb (a b : plonk_variable) : bool := ~~ pv_eqb a b && ~~ pv_ltb a b.

(** variable.hpp:196-205 [std::hash<plonk_variable>]; [comb] is [boost::hash_combine], the others [std::hash] of the
    fields *)
Section Hash.
Variables (hrot : int -> nat) (htype : column_type -> nat) (hidx : nat -> nat) (hbool : bool -> nat) (comb : nat -> nat -> nat).
Definition pv_hash (v : plonk_variable) : nat :=
  comb (comb (comb (hrot (pv_rotation v)) (htype (pv_type v))) (hidx (pv_index v))) (hbool (pv_relative v)).
End Hash.
