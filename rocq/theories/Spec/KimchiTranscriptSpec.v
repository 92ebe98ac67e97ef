(** Vocabulary of the properties of the Kimchi transcript: a transcript without a buffer of limbs. *)
From mathcomp Require Import all_ssreflect.
From Verif.Model Require Import Base KimchiTranscript.
Set Implicit Arguments.
Unset Strict Implicit.
Unset Printing Implicit Defensive.

Section Transcript.
Variables (P B L G Fr : Type) (absorb : P -> B -> P) (squeeze : P -> B * P) (unpack : B -> L * L) (pack : seq L -> Fr).
Variables (coordinates : G -> B * B) (representation : Fr -> seq B).
(** The operations of a protocol *)
Inductive operation := AbsorbG (g : G) | AbsorbGs (gs : seq G) | AbsorbFr (f : Fr) | AbsorbFrs (fs : seq Fr) | Challenge | ChallengeFq.
(** What an operation absorbs *)
Definition absorbed (o : operation) : seq B :=
  let point g := let c := coordinates g in [:: c.1; c.2] in
  match o with
  | AbsorbG g => point g | AbsorbGs gs => flatten [seq point g | g <- gs]
  | AbsorbFr f => representation f | AbsorbFrs fs => flatten [seq representation f | f <- fs]
  | _ => [::]
  end.
(** The challenges of a run, when each is drawn from the state after all that was absorbed before *)
Fixpoint ideal_challenges (p : P) (ops : seq operation) : seq (Fr + B) :=
  match ops with
  | Challenge :: ops' => let (b, p') := squeeze p in inl (pack [:: (unpack b).1; (unpack b).2]) :: ideal_challenges p' ops'
  | ChallengeFq :: ops' => let (b, p') := squeeze p in inr b :: ideal_challenges p' ops'
  | o :: ops' => ideal_challenges (foldl absorb p (absorbed o)) ops'
  | [::] => [::]
  end.
(** The challenges of the code *)
Fixpoint challenges (s : sponge P L) (ops : seq operation) : seq (Fr + B) :=
  match ops with
  | AbsorbG g :: ops' => challenges (fq_absorb_g absorb coordinates s g) ops'
  | AbsorbGs gs :: ops' => challenges (fq_absorb_gs absorb coordinates s gs) ops'
  | AbsorbFr f :: ops' => challenges (fq_absorb_fr absorb representation s f) ops'
  | AbsorbFrs fs :: ops' => challenges (fq_absorb_frs absorb representation s fs) ops'
  | Challenge :: ops' => let (c, s') := fq_challenge squeeze unpack pack s in inl c :: challenges s' ops'
  | ChallengeFq :: ops' => let (b, s') := squeeze_field squeeze s in inr b :: challenges s' ops'
  | [::] => [::]
  end.
End Transcript.
