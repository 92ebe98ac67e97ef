(** The encryption of inputs with which the encrypted input mode is meant to be used (the verifiable encryption of SAVER,
    implemented in the pubkey library, outside of this repository): what its keys and ciphertexts are. *)
From mathcomp Require Import all_ssreflect all_algebra.
From Verif.Model Require Import Groth16 EncryptedInput.
Set Implicit Arguments.
Unset Strict Implicit.
Unset Printing Implicit Defensive.
Import GRing.Theory.
Local Open Scope ring_scope.

Section EncryptedSpec.
Variables (F : fieldType) (G1 G2 : lmodType F).
(** The generators, the secrets [gamma] and [delta] of the Groth16 key and its elements [abc] for the inputs *)
Variables (g1 : G1) (g2 : G2) (gamma delta : F) (abc : seq G1).
(** The secrets of the encryption: [s], one for each encrypted input, with which one decrypts, and [t0], [t] *)
Variables (s : seq F) (t0 : F) (t : seq F).
Notation n := (size s).
Definition honest_pubkey : enc_pubkey G1 G2 :=
  EncPubkey [seq (x * delta) *: g1 | x <- s] [seq nth 0 t i *: nth 0 abc i | i <- iota 0 n]
    [seq x *: g2 | x <- t0 :: t] (- (gamma * (1 + \sum_(i < n) nth 0 s i)) *: g1).
(** The encryption of the messages [m] with randomness [r] *)
Definition encryption (r : F) (m : seq F) : seq G1 :=
  (r * delta) *: g1 :: [seq (r * nth 0 s i * delta) *: g1 + nth 0 m i *: nth 0 abc i | i <- iota 0 n]
  ++ [:: (r * delta * (t0 + \sum_(i < n) nth 0 t i * nth 0 s i)) *: g1 + \sum_(i < n) (nth 0 t i * nth 0 m i) *: nth 0 abc i].
(** The ciphertext [ct] decrypts to the messages [m]. *)
Definition decrypts_to (ct : seq G1) (m : seq F) : Prop :=
  forall i, (i < n)%N -> nth 0 ct i.+1 - nth 0 s i *: nth 0 ct 0 = nth 0 m i *: nth 0 abc i.
(** The last element of [ct] is the tag of the others. *)
Definition tagged (ct : seq G1) : Prop := nth 0 ct n.+1 = \sum_(i < n.+1) nth 0 (t0 :: t) i *: nth 0 ct i.
End EncryptedSpec.
