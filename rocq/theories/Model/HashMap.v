(** [std::unordered_map] and [std::map] as association lists: [eqb] is the key comparison ([operator==] for
    unordered_map, equivalence under [operator<] for map). Hashing only decides which bucket is searched; C18 states that
    the hashes used are compatible with [eqb]. The order of the list is the order of insertion; where the code iterates
    over the map the caller says how the order matters. *)
From mathcomp Require Import all_ssreflect.
Set Implicit Arguments.
Unset Strict Implicit.
Unset Printing Implicit Defensive.

Section Map.
Variables (K T : Type) (eqb : rel K).
(** [find(k)] *)
Fixpoint hm_find (m : seq (K * T)) (k : K) : option T :=
  if m is (k', x) :: m' then if eqb k' k then Some x else hm_find m' k else None.
(** [m[k] = x] *)
Fixpoint hm_set (m : seq (K * T)) (k : K) (x : T) : seq (K * T) :=
  if m is (k', y) :: m' then if eqb k' k then (k', x) :: m' else (k', y) :: hm_set m' k x else [:: (k, x)].
(** [erase(find(k))] *)
Fixpoint hm_erase (m : seq (K * T)) (k : K) : seq (K * T) :=
  if m is (k', y) :: m' then if eqb k' k then m' else (k', y) :: hm_erase m' k else [::].
End Map.
