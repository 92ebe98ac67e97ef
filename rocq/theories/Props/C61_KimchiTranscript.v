(** C61: the challenges of the Kimchi transcript and the powers of alpha. *)
From mathcomp Require Import all_ssreflect all_algebra.
From Verif.Model Require Import Base OrderedMap KimchiTranscript.
From Verif.Spec Require Import KimchiTranscriptSpec.
From Verif.Proofs Require Import NatTac KimchiTranscriptProofs.
From Verif.Props Require Import C05_R1csToQap.
Set Implicit Arguments.
Unset Strict Implicit.
Unset Printing Implicit Defensive.
Import GRing.Theory.
Local Open Scope ring_scope.

Section Transcript.
Variables (P B L G Fr : Type) (absorb : P -> B -> P) (squeeze : P -> B * P) (unpack : B -> L * L) (pack : seq L -> Fr).
Variables (coordinates : G -> B * B) (representation : Fr -> seq B).

(** The challenges of any sequence of operations on a new sponge are drawn from everything that was absorbed before: the
    buffer of limbs has no effect. *)
Theorem C61_transcript (p : P) (ops : seq (operation G Fr)) :
  challenges absorb squeeze unpack pack coordinates representation (Sponge p [::]) ops =
  ideal_challenges absorb squeeze unpack pack coordinates representation p ops.
Proof.
have gs (p0 : P) l : foldl (fq_absorb_g (L := L) absorb coordinates) (Sponge p0 [::]) l =
    Sponge (foldl absorb p0 (flatten [seq [:: (coordinates g).1; (coordinates g).2] | g <- l])) [::].
  by elim: l p0 => //= g l ih p0; rewrite [fq_absorb_g _ _ _ _]/= ih.
have frs (p0 : P) l : foldl (fq_absorb_fr (L := L) absorb representation) (Sponge p0 [::]) l =
    Sponge (foldl absorb p0 (flatten [seq representation f | f <- l])) [::].
  by elim: l p0 => //= f l ih p0; rewrite [fq_absorb_fr _ _ _ _]/= ih foldl_cat.
elim: ops p => // -[g|l|f|l||] ops ih p /=.
- exact: ih.
- by rewrite /fq_absorb_gs /= gs ih.
- exact: ih.
- by rewrite /fq_absorb_frs /= frs ih.
- by rewrite /fq_challenge /fq_squeeze /squeeze_limbs /=; case: (squeeze p) => b p' /=; rewrite ih.
- by rewrite /squeeze_field /=; case: (squeeze p) => b p' /=; rewrite ih.
Qed.

(** Draws of one limb: a limb drawn after [absorb_fr] of a scalar does not depend on the scalar, because the test of [absorb_fr] is
    inverted and the buffer is kept. After [absorb_g] it does. *)
Theorem C61_stale (p : P) (x y : Fr) (g : G) : let s := (fq_squeeze squeeze unpack pack (Sponge p [::]) 1).2 in
  let draw s' := (fq_squeeze squeeze unpack pack s' 1).1 in
  draw (fq_absorb_fr absorb representation s x) = draw (fq_absorb_fr absorb representation s y) /\
  draw (fq_absorb_g absorb coordinates s g) =
    pack [:: (unpack (squeeze (foldl absorb (squeeze p).2 [:: (coordinates g).1; (coordinates g).2])).1).1].
Proof.
rewrite /fq_squeeze /squeeze_limbs /=; case: (squeeze p) => b p' /=; split=> //.
by case: (squeeze _) => b' p''.
Qed.
End Transcript.

(** Decoding of a challenge: [a endo + b] for two natural numbers [a], [b] that depend only on the bits. They are of [n + 2] bits and
    determine the [2 n] bits of the challenge (n = 64 in the code). *)
Theorem C61_decode : exists a b : nat -> nat -> nat,
  (forall (F : fieldType) n r (endo : F), to_field_n n r endo = (a n r)%:R * endo + (b n r)%:R) /\
  (forall n r, (2 ^ n < a n r < 3 * 2 ^ n)%N /\ (2 ^ n < b n r < 3 * 2 ^ n)%N) /\
  (forall n r r', (r < 4 ^ n)%N -> (r' < 4 ^ n)%N -> a n r = a n r' -> b n r = b n r' -> r = r').
Proof.
exists (fun n r => (decoded n r).1), (fun n r => (decoded n r).2); split; [|split].
- by move=> F n r endo; rewrite /to_field_n to_field_foldE.
- by move=> n r; have := decoded_bounds n r; case: (decoded n r) => a b /= [/and4P[-> -> -> ->]].
- by move=> n r r' h1 h2 e1 e2; apply: (decoded_inj h1 h2); move: e1 e2; case: (decoded n r) (decoded n r') => [a b] [a' b'] /= -> ->.
Qed.

(** The powers of alpha. After any registrations (of an argument with a number of powers), an argument gets consecutive powers that start
    with the sum of the numbers registered before its first registration, and at most its number; the ranges of different
    arguments are disjoint. *)
Theorem C61_alphas (A : eqType) (F : fieldType) (regs : seq (A * nat)) (alpha : F) :
  let al := al_instantiate (foldl (fun al r => al_register al r.1 r.2) (al_new A F) regs) alpha in
  let start arg := sumn (take (index arg (unzip1 regs)) (unzip2 regs)) in let number arg := nth 0%N (unzip2 regs) (index arg (unzip1 regs)) in
  (forall arg num, al_get al arg num =
    if (arg \in unzip1 regs) && (num <= number arg)%N then Some [seq alpha ^+ (start arg + i) | i <- iota 0 num] else None) /\
  (forall arg arg', arg \in unzip1 regs -> arg' \in unzip1 regs -> arg != arg' ->
    (start arg + number arg <= start arg')%N || (start arg' + number arg' <= start arg)%N).
Proof.
move=> al start number; have [e1 e2] := @registeredE A F regs.
have sm (s : seq nat) i j : (i < j)%N -> (sumn (take i s) + nth 0%N s i <= sumn (take j s))%N.
  elim: s i j => [|x s ih] [|i] [|j] //= h; rewrite ?take0 ?leq_addr //= -addnA leq_add2l; exact: ih.
have tot (s : seq nat) i : (sumn (take i s) + nth 0%N s i <= sumn s)%N.
  elim: s i => [|x s ih] [|i] //=; [by rewrite leq_addr|by rewrite -addnA leq_add2l].
split=> [arg num|arg arg' h1 h2 ne]; last first.
  case: (ltngtP (index arg (unzip1 regs)) (index arg' (unzip1 regs))) => [lt|gt|eq]; [by rewrite sm|by rewrite orbC sm|].
  by case/eqP: ne; rewrite -(nth_index arg h1) eq nth_index.
rewrite /al_get /al e2 -/(start arg) -/(number arg); case: (arg \in _) => //=; case: leqP => //= hn.
have le : (start arg + num <= sumn (unzip2 regs))%N.
  by apply: leq_trans (tot (unzip2 regs) (index arg (unzip1 regs))); rewrite leq_add2l.
rewrite -/(start arg) powersE size_map size_iota -/(registered F regs) e1; move: (start arg) (sumn (unzip2 regs)) le => st n le.
have -> : (st + num <= (n - 1).+1)%N by clear -le; slia.
rewrite -map_drop -map_take drop_iota take_iota add0n.
have -> : minn num ((n - 1).+1 - st) = num by apply/minn_idPl; clear -le; slia.
by rewrite -[X in iota X]addn0 iotaDl -map_comp.
Qed.

(** Concrete cases: numbers as the states of the sponge *)
Definition C61_ops : seq (operation nat nat) :=
  [:: AbsorbG _ 3%N; Challenge _ _; AbsorbFr _ 5%N; Challenge _ _; AbsorbFrs _ [:: 2%N]; ChallengeFq _ _].
Definition C61_ab (p b : nat) : nat := (3 * p + b)%N.
Definition C61_sq (p : nat) : nat * nat := (p, p.+1)%N.
Example C61_transcript_witness :
  challenges C61_ab C61_sq (fun b => (b, b.+1)) (fun l => sumn l) (fun g => (g, g)) (fun f => [:: f; 1%N]) (Sponge 0%N [::]) C61_ops =
  [:: inl 25; inl 267; inr 1213]%N.
Proof. by vm_compute. Qed.
(** The limb of [absorb_fr] is stale although the sponge gives different values. *)
Example C61_stale_witness : let s := (fq_squeeze C61_sq (fun b => (b, b.+1)) (fun l => sumn l) (Sponge 0%N [::]) 1).2 in
  (C61_sq (sp_state (fq_absorb_fr C61_ab (fun f => [:: f]) s 1%N))).1 != (C61_sq (sp_state (fq_absorb_fr C61_ab (fun f => [:: f]) s 2%N))).1.
Proof. by vm_compute. Qed.
Example C61_decode_witness : to_field_n 2 6 (3%:R : C05_F) = 7%:R * 3%:R + 10%:R.
Proof. by vm_compute. Qed.
Example C61_alphas_witness :
  al_get (al_instantiate (foldl (fun al r => al_register al r.1 r.2) (al_new _ _) [:: (0, 2); (1, 3); (0, 4)]%N) (2%:R : C05_F)) 1%N 3 =
  Some [:: 4%:R; 8%:R; 16%:R].
Proof. by vm_compute. Qed.

Print Assumptions C61_transcript.
Print Assumptions C61_stale.
Print Assumptions C61_decode.
Print Assumptions C61_alphas.
