(** [slia]: linear arithmetic on the natural numbers of ssreflect. *)
From mathcomp Require Import all_ssreflect.
From Coq Require Import Lia.

Ltac slia_hyp :=
  match goal with
  | H : is_true (andb _ _) |- _ => let H1 := fresh in let H2 := fresh in case/andP: H => H1 H2
  | H : is_true (leq _ _) |- _ => move/leP in H
  | H : is_true (orb _ _) |- _ => let H1 := fresh in case/orP: H => H1
  | H : is_true (negb (eqtype.eq_op _ _)) |- _ => move/eqP in H
  | H : is_true (eqtype.eq_op _ _) |- _ => move/eqP in H
  | H : is_true (negb (leq _ _)) |- _ => rewrite -ltnNge in H
  | H : leq _ _ = false |- _ => move/negbT in H
  | H : leq _ _ = true |- _ => move/leP in H
  | H : eqtype.eq_op _ _ = false |- _ => move/eqP in H
  | H : eqtype.eq_op _ _ = true |- _ => move/eqP in H
  end.
Ltac slia_goal :=
  match goal with
  | |- is_true (andb _ _) => apply/andP; split
  | |- is_true (leq _ _) => apply/leP
  | |- is_true (eqtype.eq_op _ _) => apply/eqP
  | |- is_true (negb (eqtype.eq_op _ _)) => apply/eqP
  | |- is_true (negb (leq _ _)) => rewrite -ltnNge
  | |- is_true (orb _ _) => apply/orP
  | |- leq _ _ = true => apply/leP
  | |- eqtype.eq_op _ _ = true => apply/eqP
  | |- leq _ _ = false => apply/negbTE; rewrite -ltnNge
  | |- eqtype.eq_op _ _ = false => apply/eqP
  end.
Ltac slia_or :=
  match goal with
  | |- context [is_true (leq ?a ?b)] => rewrite -(rwP (@leP a b))
  | |- context [is_true (eqtype.eq_op ?a ?b)] => rewrite -(rwP (@eqP _ a b))
  end.
Ltac slia_ops :=
  rewrite -?addnn -?plusE -?multE -?minusE;
  repeat match goal with
  | H : context [double _] |- _ => rewrite -?addnn in H
  | H : context [addn _ _] |- _ => rewrite -?plusE in H
  | H : context [muln _ _] |- _ => rewrite -?multE in H
  | H : context [subn _ _] |- _ => rewrite -?minusE in H
  end.
Ltac slia := intros; repeat slia_hyp; repeat slia_goal; repeat slia_or; slia_ops; lia.

Goal forall a b c, (a + 2 * b < c)%N -> (a <= c - 1)%N && (a.*2 <= 2 * c.-1)%N.
Proof. slia. Qed.
Goal forall a b c, (a < b)%N && (b <= c)%N -> (a != c) && ((a < b)%N || (b == c)%N).
Proof. slia. Qed.
