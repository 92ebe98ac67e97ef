(** Bridging Coq's [ring] and [field] tactics to mathcomp fields (Coq's own plugins; no extra library). *)
From Coq Require Import Ring Field.
From mathcomp Require Import all_ssreflect all_algebra.
Set Implicit Arguments.
Unset Strict Implicit.
Unset Printing Implicit Defensive.
Import GRing.Theory.
Local Open Scope ring_scope.

Section Def.
Variable F : fieldType.
Definition fadd (a b : F) : F := a + b.
Definition fmul (a b : F) : F := a * b.
Definition fopp (a : F) : F := - a.
Definition fsub (a b : F) : F := a - b.
Definition finv (a : F) : F := a^-1.
Definition fdiv (a b : F) : F := a / b.
Definition f0 : F := 0.
Definition f1 : F := 1.

Lemma fring_theory : ring_theory f0 f1 fadd fmul fsub fopp eq.
Proof.
split; rewrite /fadd /fmul /fopp /fsub /f0 /f1.
- exact: add0r.
- exact: addrC.
- exact: addrA.
- exact: mul1r.
- exact: mulrC.
- exact: mulrA.
- exact: mulrDl.
- by [].
- exact: subrr.
Qed.

Lemma ffield_theory : field_theory f0 f1 fadd fmul fsub fopp fdiv finv eq.
Proof.
split; rewrite /f0 /f1 /fdiv /finv /fmul.
- exact: fring_theory.
- by apply/eqP; rewrite oner_eq0.
- by [].
- by move=> p /eqP h; rewrite mulVf.
Qed.
End Def.

Ltac fclean F :=
  rewrite ?expr0 ?exprS ?expr0 ?mulrS ?mulr0n;
  repeat match goal with
  | |- context [@GRing.add ?Z ?a (@GRing.opp ?Z' ?b)] =>
      change (@GRing.add Z a (@GRing.opp Z' b)) with (@fsub F a b)
  | |- context [@GRing.add ?Z ?a ?b] => change (@GRing.add Z a b) with (@fadd F a b)
  | |- context [@GRing.opp ?Z ?a] => change (@GRing.opp Z a) with (@fopp F a)
  | |- context [@GRing.mul ?Z ?a (@GRing.inv ?Z' ?b)] =>
      change (@GRing.mul Z a (@GRing.inv Z' b)) with (@fdiv F a b)
  | |- context [@GRing.mul ?Z ?a ?b] => change (@GRing.mul Z a b) with (@fmul F a b)
  | |- context [@GRing.inv ?Z ?a] => change (@GRing.inv Z a) with (@finv F a)
  | |- context [@GRing.zero ?Z] => change (@GRing.zero Z) with (@f0 F)
  | |- context [@GRing.one ?Z] => change (@GRing.one Z) with (@f1 F)
  end;
  match goal with |- ?a = ?b => change (@eq (GRing.Field.sort F) a b) | _ => idtac end.

(** Use after [Add Field Ff : (@ffield_theory F).] in the current section. *)
Ltac fring F := fclean F; ring.
Ltac ffield F := fclean F; field; repeat split; try (apply/eqP; done); try done.
