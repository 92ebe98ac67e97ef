(** Model of include/nil/crypto3/zk/math/linear_combination.hpp and linear_variable.hpp *)
From mathcomp Require Import all_ssreflect all_algebra.
From Verif.Model Require Import Base.
Set Implicit Arguments.
Unset Strict Implicit.
Unset Printing Implicit Defensive.
Import GRing.Theory.
Local Open Scope ring_scope.

Section LC.
Variable F : fieldType.

(** linear_combination.hpp:49-89 [linear_term]: an index and a coefficient. *)
Definition term := (nat * F)%type.

(** linear_combination.hpp:115-124 [linear_combination]: its [terms] vector. *)
Definition lc := seq term.

(** linear_combination.hpp:63-64 [linear_term(var)]: coefficient one. *)
Definition term_of_var (i : nat) : term := (i, 1).

(** linear_combination.hpp:66-70 [linear_term::operator*] *)
Definition term_scale (t : term) (c : F) : term := (t.1, c * t.2).

(** linear_combination.hpp:82-84 [linear_term::operator-] (unary): note that the
    C++ first rebuilds the term with coefficient one and then multiplies by minus the coefficient. *)
Definition term_opp (t : term) : term := term_scale (term_of_var t.1) (- t.2).

(** linear_combination.hpp:127-129 [linear_combination(field_coeff)]: constant on variable 0. *)
Definition lc_const (c : F) : lc := [:: term_scale (term_of_var 0) c].

(** linear_combination.hpp:130-135 [linear_combination(var)], [linear_combination(lt)] *)
Definition lc_var (i : nat) : lc := [:: term_of_var i].
Definition lc_term (t : term) : lc := [:: t].

(** linear_combination.hpp:149-155, the merge loop of the constructor. [cur] is
    [*result_it]; the list is the part of the vector not yet visited. *)
Fixpoint merge_adjacent (cur : term) (rest : seq term) : seq term :=
  if rest is t :: rest' then
    if t.1 == cur.1 then merge_adjacent (cur.1, cur.2 + t.2) rest'
    else cur :: merge_adjacent t rest'
  else [:: cur].

(** linear_combination.hpp:136-157 [linear_combination(all_terms)]. [std_sort]
    stands for [std::sort] with the comparison of indices (143-147): it is not
    stable, so it is an arbitrary function here, constrained in the theorems
    only by what the standard guarantees. *)
Definition lc_of_terms (std_sort : seq term -> seq term) (all_terms : seq term) : lc :=
  if all_terms is [::] then [::]
  else if std_sort all_terms is t :: rest then merge_adjacent t rest
  else [::].

(** linear_combination.hpp:168-177 [add_term] *)
Definition lc_add_term (l : lc) (t : term) : lc := rcons l t.

(** linear_combination.hpp:179-185 [evaluate]; reading past the assignment is [None]. *)
Definition lc_evaluate (l : lc) (assignment : seq F) : option F :=
  ofold (fun acc (t : term) =>
           obnd (if t.1 is i.+1 then vget assignment i else Some 1)
                (fun v => Some (acc + v * t.2)))
        0 l.

(** linear_combination.hpp:186-193 [operator*] by a scalar *)
Definition lc_scale (l : lc) (c : F) : lc := [seq term_scale t c | t <- l].

(** linear_combination.hpp:194-227 [operator+]: merge of two term vectors *)
Fixpoint lc_add (l1 : lc) : lc -> lc :=
  fix go (l2 : lc) : lc :=
    match l1, l2 with
    | t1 :: l1', t2 :: l2' =>
      if (t1.1 < t2.1)%N then t1 :: lc_add l1' l2
      else if (t1.1 > t2.1)%N then t2 :: go l2'
      else term_scale (term_of_var t1.1) (t1.2 + t2.2) :: lc_add l1' l2'
    | [::], _ => l2
    | _, [::] => l1
    end.

(** linear_combination.hpp:231-233 unary [operator-] *)
Definition lc_opp (l : lc) : lc := lc_scale l (- 1).

(** linear_combination.hpp:228-230 [operator-] *)
Definition lc_sub (l1 l2 : lc) : lc := lc_add l1 (lc_opp l2).

(** linear_combination.hpp:235-252 [operator==]; [std_sort] as above *)
Definition lc_eq (std_sort : seq term -> seq term) (l1 l2 : lc) : bool :=
  std_sort l1 == std_sort l2.

(** linear_combination.hpp:254-269 [is_valid]: [None] is the undefined [--terms.end()] on an
    empty vector (264). *)
Fixpoint strictly_increasing (l : lc) : bool :=
  match l with
  | t1 :: ((t2 :: _) as l') => if (t1.1 >= t2.1)%N then false else strictly_increasing l'
  | _ => true
  end.

Definition lc_is_valid (l : lc) (num_variables : nat) : option bool :=
  if ~~ strictly_increasing l then Some false
  else if l is t :: l' then
    if ((last t l').1 >= num_variables)%N then Some false else Some true
  else None.

(** linear_variable.hpp:73-81 [var + lc]: the variable is appended and the other
    operand's terms are inserted in front of it. *)
Definition var_add_lc (i : nat) (l : lc) : lc := l ++ lc_var i.

(** linear_variable.hpp:83-86 [var - lc] *)
Definition var_sub_lc (i : nat) (l : lc) : lc := var_add_lc i (lc_opp l).

End LC.
