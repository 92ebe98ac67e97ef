(** Bilinear pairings of the groups of a curve. *)
From mathcomp Require Import all_ssreflect all_algebra.
Set Implicit Arguments.
Unset Strict Implicit.
Unset Printing Implicit Defensive.
Import GRing.Theory.
Local Open Scope ring_scope.

Section Pairing.
Variables (F : fieldType) (G1 G2 GT : lmodType F).

(** [e] is bilinear. *)
Record bilinear (e : G1 -> G2 -> GT) : Prop := Bilinear {
  e_addl : forall x x' y, e (x + x') y = e x y + e x' y;
  e_addr : forall x y y', e x (y + y') = e x y + e x y';
  e_scalel : forall c x y, e (c *: x) y = c *: e x y;
  e_scaler : forall c x y, e x (c *: y) = c *: e x y }.

(** [e] is non-degenerate on the left: pairing with a non-zero element of G2 is injective. *)
Definition nondegenerate_left (e : G1 -> G2 -> GT) := forall x y, y != 0 -> e x y = 0 -> x = 0.
End Pairing.
