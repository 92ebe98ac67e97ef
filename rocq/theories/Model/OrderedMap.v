(** [std::map<std::size_t, T>] as an association list sorted by key: iteration goes through the keys in increasing order.
    Also the notation for sequencing and mapping computations that can fail. *)
From mathcomp Require Import all_ssreflect.
From Verif.Model Require Import Base.
Set Implicit Arguments.
Unset Strict Implicit.
Unset Printing Implicit Defensive.

Notation "'olet' x <- e ; f" := (obnd e (fun x => f)) (at level 200, x pattern, e at level 100, f at level 200,
  right associativity, only parsing).
Notation "'oguard' b ; f" := (if b then f else None) (at level 200, b at level 100, f at level 200,
  right associativity, only parsing).

(** All results, or failure if one computation fails. *)
Fixpoint omapM (A B : Type) (f : A -> option B) (s : seq A) : option (seq B) :=
  if s is x :: s' then obnd (f x) (fun y => omap (cons y) (omapM f s')) else Some [::].

Section OMap.
Variable T : Type.
Definition omapT := seq (nat * T).
(** [find], [at] ([None]: the exception of [at]) *)
Fixpoint om_get (m : omapT) (k : nat) : option T :=
  if m is (k', x) :: m' then if k' == k then Some x else om_get m' k else None.
(** [m[k] = x] *)
Fixpoint om_set (m : omapT) (k : nat) (x : T) : omapT :=
  if m is (k', y) :: m' then
    if k < k' then (k, x) :: m else if k == k' then (k, x) :: m' else (k', y) :: om_set m' k x
  else [:: (k, x)].
Definition om_keys (m : omapT) : seq nat := [seq e.1 | e <- m].
End OMap.
