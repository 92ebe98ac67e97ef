(** Model of transcript/kimchi_transcript.hpp [DefaultFqSponge], of [ScalarChallenge] (snark/systems/plonk/pickles/detail/mapping.hpp)
    and of [Alphas] (snark/systems/plonk/pickles/alphas.hpp). The Poseidon sponge (crypto3-hash) and the conversions between field
    elements and limbs are arbitrary functions. *)
From mathcomp Require Import all_ssreflect all_algebra.
From Verif.Model Require Import Base OrderedMap.
Set Implicit Arguments.
Unset Strict Implicit.
Unset Printing Implicit Defensive.
Import GRing.Theory.
Local Open Scope ring_scope.

Section FqSponge.
(** [P]: the state of the Poseidon sponge; [B]: elements of the base field; [L]: 64-bit limbs; [G]: points; [Fr]: scalars *)
Variables (P B L G Fr : Type) (absorb : P -> B -> P) (squeeze : P -> B * P).
(** kimchi_transcript.hpp:46-56 [unpack]: the two low limbs *)
Variable unpack : B -> L * L.
(** kimchi_transcript.hpp:33-44 [pack] *)
Variable pack : seq L -> Fr.
(** The coordinates of a point (216-217) and the one or two base field elements that represent a scalar (224-244) *)
Variables (coordinates : G -> B * B) (representation : Fr -> seq B).

(** kimchi_transcript.hpp:72-73 *)
Record sponge := Sponge { sp_state : P; sp_last_squeezed : seq L }.

(** kimchi_transcript.hpp:171-190 [squeeze_limbs]; each call adds two limbs, so that [num_limbs] calls are enough *)
Fixpoint squeeze_limbs_loop (fuel : nat) (s : sponge) (num_limbs : nat) : seq L * sponge :=
  if (num_limbs <= size (sp_last_squeezed s))%N then
    (take num_limbs (sp_last_squeezed s), Sponge (sp_state s) (drop num_limbs (sp_last_squeezed s)))
  else if fuel is f.+1 then
    let (sq, p) := squeeze (sp_state s) in let x := unpack sq in
    squeeze_limbs_loop f (Sponge p (sp_last_squeezed s ++ [:: x.1; x.2])) num_limbs
  else ([::], s).
Definition squeeze_limbs (s : sponge) (num_limbs : nat) : seq L * sponge := squeeze_limbs_loop num_limbs s num_limbs.
(** kimchi_transcript.hpp:192-195 [squeeze_field] *)
Definition squeeze_field (s : sponge) : B * sponge := let (b, p) := squeeze (sp_state s) in (b, Sponge p [::]).
(** kimchi_transcript.hpp:197-203 [squeeze] *)
Definition fq_squeeze (s : sponge) (num_limbs : nat) : Fr * sponge := let (l, s) := squeeze_limbs s num_limbs in (pack l, s).
(** kimchi_transcript.hpp:212-218 [absorb_g] of a point *)
Definition fq_absorb_g (s : sponge) (g : G) : sponge :=
  let s := if sp_last_squeezed s is _ :: _ then Sponge (sp_state s) [::] else s in
  let c := coordinates g in Sponge (absorb (absorb (sp_state s) c.1) c.2) (sp_last_squeezed s).
(** kimchi_transcript.hpp:205-210 [absorb_g] of a vector *)
Definition fq_absorb_gs (s : sponge) (gs : seq G) : sponge := foldl fq_absorb_g (Sponge (sp_state s) [::]) gs.
(** kimchi_transcript.hpp:220-245 [absorb_fr] of a scalar: the limbs are dropped if there are none *)
Definition fq_absorb_fr (s : sponge) (f : Fr) : sponge :=
  let s := if sp_last_squeezed s is [::] then Sponge (sp_state s) [::] else s in
  Sponge (foldl absorb (sp_state s) (representation f)) (sp_last_squeezed s).
(** kimchi_transcript.hpp:246-252 [absorb_fr] of a vector *)
Definition fq_absorb_frs (s : sponge) (fs : seq Fr) : sponge := foldl fq_absorb_fr (Sponge (sp_state s) [::]) fs.
(** kimchi_transcript.hpp:254-256 [challenge]; CHALLENGE_LENGTH_IN_LIMBS = 2 (30) *)
Definition fq_challenge (s : sponge) : Fr * sponge := fq_squeeze s 2.
End FqSponge.

(** mapping.hpp:85-114 [to_field]: the loop over the pairs of bits, and the result; [rep]: the value as a number, for [n] pairs of bits
    (64 in the code: 64 * CHALLENGE_LENGTH_IN_LIMBS / 2) *)
Section ScalarChallenge.
Variable F : fieldType.
Definition to_field_step (rep : nat) (st : F * F) (i : nat) : F * F :=
  let a := st.1 + st.1 in let b := st.2 + st.2 in
  let s : F := if odd (rep %/ 2 ^ (2 * i)) then 1 else - 1 in
  if ~~ odd (rep %/ 2 ^ (2 * i + 1)) then (a, b + s) else (a + s, b).
Definition to_field_n (n rep : nat) (endo_coeff : F) : F :=
  let ab := foldl (to_field_step rep) (2%:R, 2%:R) (rev (iota 0 n)) in ab.1 * endo_coeff + ab.2.
Definition to_field : nat -> F -> F := to_field_n 64.
End ScalarChallenge.

(** alphas.hpp:43-87 [Alphas]; [A]: the type of the arguments. [int] does not overflow. *)
Section Alphas.
Variables (A : eqType) (F : fieldType).
Record alphas := Alphas { al_next_power : nat; al_mapping : seq (A * (nat * nat)); al_alphas : seq F }.
(** [mapping.find] *)
Fixpoint al_find (m : seq (A * (nat * nat))) (arg : A) : option (nat * nat) :=
  if m is e :: m' then if e.1 == arg then Some e.2 else al_find m' arg else None.
(** 54 *)
Definition al_new : alphas := Alphas 0 [::] [::].
(** 57-63 [register_] *)
Definition al_register (al : alphas) (arg : A) (power : nat) : alphas :=
  Alphas (al_next_power al + power) (if al_find (al_mapping al) arg is None then rcons (al_mapping al) (arg, (al_next_power al, power)) else al_mapping al)
    (al_alphas al).
(** 65-75 [instantiate] *)
Definition al_instantiate (al : alphas) (alpha : F) : alphas :=
  Alphas (al_next_power al) (al_mapping al) (foldl (fun v _ => rcons v (last 0 v * alpha)) [:: 1] (iota 1 (al_next_power al - 1))).
(** 78-86 [get_alphas]; [None]: a failed assertion, or a range outside of the vector *)
Definition al_get (al : alphas) (arg : A) (num : nat) : option (seq F) :=
  olet range <- al_find (al_mapping al) arg;
  oguard (num <= range.2)%N;
  oguard (range.1 + num <= size (al_alphas al))%N;
  Some (take num (drop range.1 (al_alphas al))).
End Alphas.
