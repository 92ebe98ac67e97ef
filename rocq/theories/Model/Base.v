(** Shared conventions of the model: vectors are [seq], out-of-range reads and
    writes are [None] (the C++ has undefined behaviour there). *)
From mathcomp Require Import all_ssreflect.
Set Implicit Arguments.
Unset Strict Implicit.
Unset Printing Implicit Defensive.

Section Vec.
Variable T : Type.

(** [std::vector::operator[]] as a read: [None] when out of range (UB in C++). *)
Fixpoint vget (s : seq T) (i : nat) : option T :=
  match s, i with
  | x :: _, 0 => Some x
  | _ :: s', i'.+1 => vget s' i'
  | [::], _ => None
  end.

(** [v[i] = x]: [None] when out of range (UB in C++). *)
Definition vset (s : seq T) (i : nat) (x : T) : option (seq T) :=
  if i < size s then Some (take i s ++ x :: drop i.+1 s) else None.
End Vec.

(** Sequencing of computations that can fail. *)
Definition obnd (A B : Type) (o : option A) (f : A -> option B) : option B :=
  if o is Some a then f a else None.

(** A loop [for (x : l) acc = body(acc, x)] whose body can fail. *)
Fixpoint ofold (A B : Type) (f : B -> A -> option B) (acc : B) (l : seq A) : option B :=
  if l is x :: l' then obnd (f acc x) (fun acc' => ofold f acc' l') else Some acc.

(** Closing of concrete computations over a finite field (used only by Examples). *)
Ltac vm_decide := repeat split; try (apply/eqP; vm_compute; reflexivity).
