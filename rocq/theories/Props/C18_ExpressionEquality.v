(** C18: equality and hashing of expressions are consistent. *)
From mathcomp Require Import all_ssreflect all_algebra.
From Verif.Model Require Import Base HashMap Expression PlonkVariable.
From Verif.Spec Require Import ExprSpec.
From Verif.Proofs Require Import MapProofs ExprProofs.
Set Implicit Arguments.
Unset Strict Implicit.
Unset Printing Implicit Defensive.
Import GRing.Theory.
Local Open Scope ring_scope.

Section C18.
Variables (V : eqType) (R : comRingType).
Implicit Types (a b c : expr V R) (t u : eterm V R).

(** Terms are equal when the coefficients are and the variables are the same multiset. *)
Theorem C18_term_equality t u : term_eqb t u = (t_coeff t == t_coeff u) && perm_eq (t_vars t) (t_vars u).
Proof. exact: term_eqbE. Qed.

(** Equality of expressions is an equivalence, and equal expressions have equal values under every assignment. *)
Theorem C18_expression_equality :
  [/\ reflexive (@expr_eqb V R), symmetric (@expr_eqb V R), transitive (@expr_eqb V R)
    & forall a b (g : V -> R), expr_eqb a b -> evaluate g a = evaluate g b].
Proof.
split; [exact: expr_eqb_refl | exact: expr_eqb_sym | exact: expr_eqb_trans | ].
by move=> a b g; apply: evaluate_eq.
Qed.
(** Equality is structural: the same tree up to the order of the variables inside the leaves. *)
Theorem C18_structure a b : expr_eqb a b =
  match a, b with
  | Term t, Term u => (t_coeff t == t_coeff u) && perm_eq (t_vars t) (t_vars u)
  | Pow a' n, Pow b' m => (n == m) && expr_eqb a' b'
  | Bin ADD a1 a2, Bin ADD b1 b2 | Bin SUB a1 a2, Bin SUB b1 b2 | Bin MULT a1 a2, Bin MULT b1 b2 =>
      expr_eqb a1 b1 && expr_eqb a2 b2
  | _, _ => false
  end.
Proof. by case: a b => [t|a n|[] a1 a2] [u|b m|[] b1 b2] //=; rewrite term_eqbE. Qed.

(** Sums of monomials are equal when every monomial occurs equally often; then the values are equal. *)
Theorem C18_sum_equality (l m : nlc V R) :
  (nlc_eqb l m <-> forall t, count (term_eqb t) l = count (term_eqb t) m) /\
  (nlc_eqb l m -> forall g, sum_of_monomials g l = sum_of_monomials g m).
Proof. by split; [exact: nlc_eqbP | move=> h g; rewrite -!nval_spec; apply: nlc_eq_val]. Qed.

(** Equal terms and expressions have equal hashes, whatever the hash functions of variables, coefficients and integers
    and the combining function are, provided the variables' [operator<] is a strict total order. *)
Variables (hV : V -> nat) (hR : R -> nat) (comb : nat -> nat -> nat) (hn : nat -> nat) (ltV : rel V).
Definition strict_total_order (lt : rel V) : Prop :=
  [/\ irreflexive lt, transitive lt & forall v w, [|| v == w, lt v w | lt w v]].
Theorem C18_hash a b : strict_total_order ltV -> expr_eqb a b ->
  expr_hash hV hR comb hn ltV a = expr_hash hV hR comb hn ltV b.
Proof. by move=> [h1 h2 h3]; apply: expr_hash_eq. Qed.
Theorem C18_term_hash t u : strict_total_order ltV -> term_eqb t u -> term_hash hV hR comb ltV t = term_hash hV hR comb ltV u.
Proof. by move=> [h1 h2 h3]; apply: term_hash_eq. Qed.

(** So looking only among the entries whose hash is the key's finds what a search of the whole map would find. *)
Theorem C18_lookup (T : Type) (m : seq (expr V R * T)) a : strict_total_order ltV ->
  let h := expr_hash hV hR comb hn ltV in
  hm_find (@expr_eqb V R) [seq e <- m | h e.1 == h a] a = hm_find (@expr_eqb V R) m a.
Proof.
move=> hlt h; elim: m => //= -[k x] m IH /=; case: eqP => [_|ne] /=; rewrite IH //.
by case: ifP => // /(C18_hash hlt) /ne.
Qed.
End C18.

(** PLONK variables: [==] is equality of the four fields, [<] a strict total order, [>] its converse. *)
Theorem C18_plonk_variable (v w : plonk_variable) :
  [/\ pv_eqb v w <-> v = w, strict_total_order pv_ltb & pv_gtb v w = pv_ltb w v].
Proof.
split; [by rewrite pv_eqbE; split=> /eqP | | exact: pv_gtbE].
by split; [exact: pv_ltb_irr | exact: pv_ltb_trans | exact: pv_ltb_total].
Qed.

Example C18_witness :
  let F := [fieldType of 'F_17] in
  let v := PlonkVariable 0 0 true CWitness in let w := PlonkVariable 0 (-1) true CWitness in
  let t := ETerm [:: v; w; v] (3 : F) in
  [/\ term_eqb t (ETerm [:: w; v; v] (3 : F)), ~~ term_eqb t (ETerm [:: w; w; v] (3 : F)), ~~ term_eqb t (ETerm [:: v; w; v] (4 : F)),
      pv_ltb w v & sort_vars pv_ltb (t_vars t) = [:: w; v; v]].
Proof. by split; vm_compute. Qed.

Print Assumptions C18_term_equality.
Print Assumptions C18_expression_equality.
Print Assumptions C18_structure.
Print Assumptions C18_sum_equality.
Print Assumptions C18_hash.
Print Assumptions C18_term_hash.
Print Assumptions C18_lookup.
Print Assumptions C18_plonk_variable.
