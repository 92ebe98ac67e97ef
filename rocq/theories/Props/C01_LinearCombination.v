(** C01: linear combinations denote sums and are built sorted. *)
From mathcomp Require Import all_ssreflect all_algebra.
From Verif.Model Require Import Base LinearCombination ConstraintSystems.
From Verif.Spec Require Import LinearSpec.
From Verif.Proofs Require Import LinearProofs.
Set Implicit Arguments.
Unset Strict Implicit.
Unset Printing Implicit Defensive.
Import GRing.Theory.
Local Open Scope ring_scope.

Section C01.
Variable F : fieldType.
Implicit Types (l : lc F) (x : seq F) (c : F).

(** [evaluate] is defined exactly when every variable exists, and is then the mathematical sum. *)
Theorem C01_evaluate l x v :
  lc_evaluate l x = Some v <-> vars_in l (size x) /\ v = denote l x.
Proof.
split=> [e|[h ->]]; last exact: lc_evaluate_some.
case: (vars_inP l (size x)) => [h|h]; last by rewrite (lc_evaluate_none h) in e.
by rewrite (lc_evaluate_some h) in e; case: e.
Qed.

(** The vector constructor: same formal sum (per-variable coefficient), same variables,
    strictly increasing indices, same value - whatever [std::sort] does with equal keys. *)
Theorem C01_constructor srt l : sorts_by_index srt ->
  [/\ forall i, coef_of (lc_of_terms srt l) i = coef_of l i,
      [seq t.1 | t <- lc_of_terms srt l] =i [seq t.1 | t <- l],
      strictly_sorted (lc_of_terms srt l)
    & forall x, lc_evaluate (lc_of_terms srt l) x = lc_evaluate l x].
Proof.
move=> h; split; try by [apply: lc_of_terms_coef | apply: lc_of_terms_mem | apply: lc_of_terms_sorted].
by move=> x; apply: lc_evaluate_ext; [apply: lc_of_terms_denote | apply: lc_of_terms_mem].
Qed.

(** The constructor's result does not depend on the sorting algorithm. *)
Theorem C01_constructor_deterministic srt1 srt2 l :
  sorts_by_index srt1 -> sorts_by_index srt2 -> lc_of_terms srt1 l = lc_of_terms srt2 l.
Proof. exact: lc_of_terms_det. Qed.

Definition olift2 (op : F -> F -> F) (a b : option F) : option F :=
  if (a, b) is (Some a', Some b') then Some (op a' b') else None.

Theorem C01_add l1 l2 x :
  lc_evaluate (lc_add l1 l2) x = olift2 +%R (lc_evaluate l1 x) (lc_evaluate l2 x).
Proof. exact: lc_evaluate_add. Qed.

Theorem C01_sub l1 l2 x :
  lc_evaluate (lc_sub l1 l2) x = olift2 (fun a b => a - b) (lc_evaluate l1 x) (lc_evaluate l2 x).
Proof. exact: lc_evaluate_sub. Qed.

Theorem C01_scale l c x :
  lc_evaluate (lc_scale l c) x = omap (fun a => c * a) (lc_evaluate l x).
Proof. exact: lc_evaluate_scale. Qed.

Theorem C01_opp l x : lc_evaluate (lc_opp l) x = omap (fun a => - a) (lc_evaluate l x).
Proof. exact: lc_evaluate_opp. Qed.

Theorem C01_var_plus_lc i l x :
  lc_evaluate (var_add_lc i l) x = olift2 +%R (lc_evaluate (lc_var F i) x) (lc_evaluate l x).
Proof. exact: lc_evaluate_var_add. Qed.

(** [var - lc], the unary minus of a term, the constant and the one-variable combinations, [add_term]. *)
Theorem C01_var_minus_lc i l x :
  lc_evaluate (var_sub_lc i l) x = olift2 (fun a b => a - b) (lc_evaluate (lc_var F i) x) (lc_evaluate l x).
Proof.
rewrite /var_sub_lc C01_var_plus_lc C01_opp /olift2.
by case: (lc_evaluate (lc_var F i) x) => // a; case: (lc_evaluate l x).
Qed.

Theorem C01_term_opp (t : term F) x :
  lc_evaluate (lc_term (term_opp t)) x = omap (fun a => - a) (lc_evaluate (lc_term t) x).
Proof.
rewrite /lc_evaluate /=; case: t => -[|i] c /=; first by rewrite !add0r !mul1r mulr1.
by case: (vget x i) => //= a; rewrite !add0r mulr1 mulrN.
Qed.

Theorem C01_term_scale (t : term F) c x :
  lc_evaluate (lc_term (term_scale t c)) x = omap (fun a => c * a) (lc_evaluate (lc_term t) x).
Proof.
rewrite /lc_evaluate /=; case: t => -[|i] d /=; first by rewrite !add0r !mul1r.
by case: (vget x i) => //= a; rewrite !add0r mulrCA.
Qed.

Theorem C01_const c x : lc_evaluate (lc_const c) x = Some c.
Proof. by rewrite /lc_evaluate /= add0r mul1r mulr1. Qed.

Theorem C01_var i x : lc_evaluate (lc_var F i.+1) x = vget x i.
Proof. by rewrite /lc_evaluate /=; case: (vget x i) => //= a; rewrite add0r mulr1. Qed.

Theorem C01_add_term l (t : term F) x :
  lc_evaluate (lc_add_term l t) x = olift2 +%R (lc_evaluate l x) (lc_evaluate (lc_term t) x).
Proof.
rewrite /lc_evaluate /lc_add_term.
have h (f : F -> term F -> option F) a : ofold f a (rcons l t) = obnd (ofold f a l) (fun b => f b t).
  by elim: l a => [|u l IH] a /=; [case: (f a t) | case: (f a u)].
rewrite {}h /=; case: (ofold _ _ _) => //= a.
by case: (match t.1 with 0 => _ | _ => _ end) => //= b; rewrite add0r.
Qed.

(** [operator+] keeps canonical form and adds coefficients variable by variable. *)
Theorem C01_add_canonical l1 l2 : strictly_sorted l1 -> strictly_sorted l2 ->
  strictly_sorted (lc_add l1 l2) /\ forall i, coef_of (lc_add l1 l2) i = coef_of l1 i + coef_of l2 i.
Proof. by move=> h1 h2; split; [apply: lc_add_sorted | move=> i; apply: lc_add_coef]. Qed.

(** [is_valid] on a nonempty combination: sorted strictly and every index below the bound. *)
Theorem C01_is_valid l n : l <> [::] ->
  lc_is_valid l n = Some true <-> strictly_sorted l /\ forall t, t \in l -> (t.1 < n)%N.
Proof. exact: lc_is_valid_spec. Qed.

(** [==] never identifies combinations with different values, and on constructor-built
    combinations it is equality of the term vectors. *)
Theorem C01_equality srt l1 l2 : sorts_by_index srt ->
  (lc_eq srt l1 l2 -> forall x, lc_evaluate l1 x = lc_evaluate l2 x) /\
  lc_eq srt (lc_of_terms srt l1) (lc_of_terms srt l2) = (lc_of_terms srt l1 == lc_of_terms srt l2).
Proof.
move=> h; split; last exact: lc_eq_canonical.
move=> e x; have [h1 _] := h l1; have [h2 _] := h l2; move/eqP: e => e.
apply: lc_evaluate_ext => [y|]; first by rewrite -(denote_perm y h1) -(denote_perm y h2) e.
by apply/perm_mem/perm_map; rewrite -(permPl h1) e.
Qed.

End C01.

(** Finding: [is_valid] inspects [*--terms.end()] of an empty vector: undefined behaviour on the zero combination. *)
Theorem C01_is_valid_empty_refuted (F : fieldType) : exists (l : lc F) n, lc_is_valid l n = None.
Proof. by exists [::], 0%N. Qed.

(** Non-vacuity: a concrete sort and a combination with repeated, unsorted indices over F_7. *)
Definition merge_sort_by_index (F : fieldType) : seq (nat * F) -> seq (nat * F) :=
  sort (fun a b => (a.1 <= b.1)%N).

Example C01_sort_exists (F : fieldType) : sorts_by_index (@merge_sort_by_index F).
Proof.
move=> l; split; first by rewrite /merge_sort_by_index perm_sort.
by rewrite sorted_map; apply: sort_sorted => a b; apply: leq_total.
Qed.

Example C01_witness :
  let l := [:: (3%N, 2%:R); (0%N, 1%:R); (3%N, 6%:R); (1%N, 3%:R)] : lc [fieldType of 'F_7] in
  lc_of_terms (@merge_sort_by_index _) l = [:: (0%N, 1%:R); (1%N, 3%:R); (3%N, 1%:R)] /\
  lc_evaluate l [:: 2%:R; 5%:R; 4%:R] = Some 4%:R /\
  lc_is_valid (lc_of_terms (@merge_sort_by_index _) l) 4 = Some true.
Proof. by vm_decide. Qed.

Print Assumptions C01_evaluate.
Print Assumptions C01_constructor.
Print Assumptions C01_constructor_deterministic.
Print Assumptions C01_add.
Print Assumptions C01_sub.
Print Assumptions C01_scale.
Print Assumptions C01_opp.
Print Assumptions C01_var_plus_lc.
Print Assumptions C01_var_minus_lc.
Print Assumptions C01_term_opp.
Print Assumptions C01_term_scale.
Print Assumptions C01_const.
Print Assumptions C01_var.
Print Assumptions C01_add_term.
Print Assumptions C01_add_canonical.
Print Assumptions C01_is_valid.
Print Assumptions C01_equality.
Print Assumptions C01_is_valid_empty_refuted.
