(** Model of transcript/fiat_shamir.hpp:134-216 [fiat_shamir_heuristic_sequential] (hashes that consume bytes or field
    elements; [B] is the type of the words consumed). [hash] is the hash of a whole input; feeding the accumulator of
    [hash(state)] with more words hashes the concatenation. *)
From mathcomp Require Import all_ssreflect.
Set Implicit Arguments.
Unset Strict Implicit.
Unset Printing Implicit Defensive.

Section Transcript.
Variables (B F I : Type) (hash : seq B -> seq B).
(** reading a digest as a field element (179-187) or as an integer (193-198) *)
Variables (digest_to_field : seq B -> F) (digest_to_int : seq B -> I).

(** 214: the state is a digest *)
Definition transcript := seq B.
(** 139-149 *)
Definition tr_init (r : seq B) : transcript := hash r.
(** 151-163 [operator()] *)
Definition tr_absorb (st : transcript) (r : seq B) : transcript := hash (st ++ r).
(** 165-188 [challenge] *)
Definition tr_challenge (st : transcript) : F * transcript := let st' := hash st in (digest_to_field st', st').
(** 190-199 [int_challenge] *)
Definition tr_int_challenge (st : transcript) : I * transcript := let st' := hash st in (digest_to_int st', st').
(** 201-212 [challenges] *)
Fixpoint tr_challenges (n : nat) (st : transcript) : seq F * transcript :=
  if n is n'.+1 then
    let (c, st1) := tr_challenge st in let (cs, st2) := tr_challenges n' st1 in (c :: cs, st2)
  else ([::], st).
End Transcript.
