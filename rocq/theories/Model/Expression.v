(** Model of include/nil/crypto3/zk/math/{expression,expression_evaluator,expression_visitors,non_linear_combination}.hpp.
    The assignment type is any commutative ring (a field, or polynomials); [polynomial_dfs] multiplication and its domain
    cache are their mathematical meaning. Powers ([size_t], stored as [int]) are naturals: powers of 2^31 and more and
    negative powers are not modelled. *)
From Coq Require Import NArith.
From mathcomp Require Import all_ssreflect all_algebra.
From Verif.Model Require Import Base HashMap.
Set Implicit Arguments.
Unset Strict Implicit.
Unset Printing Implicit Defensive.
Import GRing.Theory.
Local Open Scope ring_scope.

(** expression.hpp:45-50 *)
Inductive arith_op := ADD | SUB | MULT.
Definition arith_op_eqb (a b : arith_op) : bool :=
  match a, b with ADD, ADD | SUB, SUB | MULT, MULT => true | _, _ => false end.

Section Expression.
Variables (V : eqType) (R : comRingType).

(** expression.hpp:184-284 [term]: the variables (with repetition) and the coefficient *)
Record eterm := ETerm { t_vars : seq V; t_coeff : R }.

(** expression.hpp:68-176, 286-414 [expression]: a variant of term, power and binary operation *)
Inductive expr :=
| Term of eterm
| Pow of expr & nat
| Bin of arith_op & expr & expr.

(** ** Constructors *)
(** expression.hpp:190-192 *)
Definition term_nil : eterm := ETerm [::] 0.
(** expression.hpp:194-197 *)
Definition term_var (v : V) : eterm := ETerm [:: v] 1.
(** expression.hpp:202-205 *)
Definition term_const (c : R) : eterm := ETerm [::] c.
(** expression.hpp:215-220 *)
Definition term_of_vars (vs : seq V) : eterm := ETerm vs 1.
(** expression.hpp:86-89 *)
Definition expr_nil : expr := Term (term_const 0).
(** expression.hpp:103-106 *)
Definition expr_var (v : V) : expr := Term (term_var v).
(** expression.hpp:111-115 *)
Definition expr_const (c : R) : expr := Term (term_const c).

(** ** Equality *)
(** The counter map [std::unordered_map<VariableType, int>] *)
Notation cmap_find := (hm_find (@eq_op V)).
Notation cmap_set := (hm_set (@eq_op V)).

(** expression.hpp:570-582 [to_unordered_map] *)
Definition to_unordered_map (t : eterm) : seq (V * int) :=
  foldl (fun m v => if cmap_find m v is Some n then cmap_set m v (n + 1) else cmap_set m v 1) [::] (t_vars t).

(** expression.hpp:585-608 [term::operator==] *)
Fixpoint term_eq_loop (m : seq (V * int)) (vs : seq V) : option (seq (V * int)) :=
  if vs is v :: vs' then
    if cmap_find m v is Some n then term_eq_loop (cmap_set m v (n - 1)) vs' else None
  else Some m.
Definition term_eqb (t u : eterm) : bool :=
  if t_coeff t != t_coeff u then false
  else if size (t_vars t) != size (t_vars u) then false
  else if term_eq_loop (to_unordered_map t) (t_vars u) is Some m then all (fun e => e.2 == 0) m else false.

(** expression.hpp:672-676, 686-692, 702-705 [operator==] of powers, binary operations and expressions *)
Fixpoint expr_eqb (a b : expr) : bool :=
  match a, b with
  | Term t, Term u => term_eqb t u
  | Pow a' n, Pow b' m => (n == m) && expr_eqb a' b'
  | Bin o a1 a2, Bin p b1 b2 => [&& arith_op_eqb o p, expr_eqb a1 b1 & expr_eqb a2 b2]
  | _, _ => false
  end.

(** expression.hpp:136-138 *)
Definition is_empty (e : expr) : bool := expr_eqb e expr_nil.
(** expression.hpp:227-229 *)
Definition term_is_zero (t : eterm) : bool := t_coeff t == 0.

(** ** Operators *)
(** expression.hpp:418-427 [term::operator*] *)
Definition term_mul (t u : eterm) : eterm :=
  if term_is_zero t || term_is_zero u then term_nil
  else ETerm (t_vars t ++ t_vars u) (t_coeff u * t_coeff t).
(** expression.hpp:446-448 [term::operator-] *)
Definition eterm_opp (t : eterm) : eterm := ETerm (t_vars t) (- t_coeff t).
(** expression.hpp:441-443, 453-455 *)
Definition e_pow (e : expr) (n : nat) : expr := Pow e n.
(** expression.hpp:495-503 [operator+] *)
Definition e_add (a b : expr) : expr := if is_empty a then b else if is_empty b then a else Bin ADD a b.
(** expression.hpp:506-509 [operator-] *)
Definition e_sub (a b : expr) : expr := Bin SUB a b.
(** expression.hpp:512-518 [operator*] *)
Definition e_mul (a b : expr) : expr := if is_empty a || is_empty b then expr_nil else Bin MULT a b.
(** expression.hpp:458-460 unary minus *)
Definition e_opp (e : expr) : expr := e_sub (Term (term_const 0)) e.
(** expression.hpp:463-472 [operator+=] *)
Definition e_add_assign (a b : expr) : expr := if is_empty a then b else if ~~ is_empty b then Bin ADD a b else a.
(** expression.hpp:475-480 [operator-=] *)
Definition e_sub_assign (a b : expr) : expr := Bin SUB a b.
(** expression.hpp:483-492 [operator*=] *)
Definition e_mul_assign (a b : expr) : expr := if is_empty a || is_empty b then expr_nil else Bin MULT a b.
(** expression.hpp:430-438 [term + term], [term - term] *)
Definition term_add (t u : eterm) : expr := e_add (Term t) (Term u).
Definition term_sub (t u : eterm) : expr := e_sub (Term t) (Term u).
(** plonk/variable.hpp:96-103 variable * coefficient, variable * variable *)
Definition pv_mul_const (v : V) (c : R) : eterm := term_mul (term_var v) (term_const c).
Definition pv_mul_var (v w : V) : eterm := term_mul (term_var v) (term_var w).
(** plonk/variable.hpp:105-117 variable + expression, variable - expression; 119-121 [-variable] *)
Definition pv_add (v : V) (e : expr) : expr := e_add_assign (expr_var v) e.
Definition pv_sub (v : V) (e : expr) : expr := e_sub_assign (expr_var v) e.
Definition pv_opp (v : V) : eterm := eterm_opp (term_var v).
(** plonk/variable.hpp:155-169 constant + variable, constant - variable *)
Definition const_add_pv (c : R) (v : V) : expr := pv_add v (expr_const c).
Definition const_sub_pv (c : R) (v : V) : expr := e_opp (pv_sub v (expr_const c)).

(** ** Plain evaluation: expression_evaluator.hpp:85-145 *)
Variable get_var_value : V -> R.
(** expression_evaluator.hpp:107-113 *)
Definition eval_term (t : eterm) : R := foldl (fun r v => r * get_var_value v) (t_coeff t) (t_vars t).
Fixpoint evaluate (e : expr) : R :=
  match e with
  | Term t => eval_term t
  | Pow b n => evaluate b ^+ n
  | Bin ADD a b => evaluate a + evaluate b
  | Bin SUB a b => evaluate a - evaluate b
  | Bin MULT a b => evaluate a * evaluate b
  end.

(** ** Cached evaluation *)
(** [std::unordered_map<expression, T>]: keys are compared with [operator==] *)
Notation emap_find := (hm_find expr_eqb).
Notation emap_set := (hm_set expr_eqb).
Notation emap_erase := (hm_erase expr_eqb).
(** [_counts[k]] *)
Definition count_of (m : seq (expr * nat)) (k : expr) : nat := odflt 0%N (emap_find m k).

(** expression_evaluator.hpp:147-189 [subexpression_counter] *)
Definition bump (m : seq (expr * nat)) (k : expr) := emap_set m k (count_of m k).+1.
Fixpoint count_subexprs (m : seq (expr * nat)) (e : expr) : seq (expr * nat) :=
  match e with
  | Term t => if (2 < size (t_vars t))%N then bump m e else m
  | Pow b _ => count_subexprs (bump m e) b
  | Bin _ a b => count_subexprs (count_subexprs (bump m e) a) b
  end.

Record cstate := CState { cs_counts : seq (expr * nat); cs_cache : seq (expr * R) }.

(** expression_evaluator.hpp:227-236, 254-264, 276-283: a cache hit. [None]: the unsigned counter would wrap below 0. *)
Definition cache_hit (st : cstate) (e : expr) (x : R) : option (R * cstate) :=
  if count_of (cs_counts st) e is n.+1 then
    let counts := emap_set (cs_counts st) e n in
    Some (x, CState counts (if n == 0%N then emap_erase (cs_cache st) e else cs_cache st))
  else None.
(** expression_evaluator.hpp:246-248, 268-270, 297-299: store the result if it will be needed again *)
Definition cache_store (st : cstate) (e : expr) (x : R) : R * cstate :=
  (x, if (1 < count_of (cs_counts st) e)%N then CState (cs_counts st) (emap_set (cs_cache st) e x) else st).

(** expression_evaluator.hpp:238-245 the product, skipping a multiplication by one *)
Definition ceval_term (t : eterm) : R :=
  foldl (fun r v => if r == 1 then get_var_value v else r * get_var_value v) (t_coeff t) (t_vars t).

(** expression_evaluator.hpp:222-301 [cached_expression_evaluator] *)
Fixpoint ceval (st : cstate) (e : expr) : option (R * cstate) :=
  match e with
  | Term t =>
      if size (t_vars t) == 0%N then Some (t_coeff t, st)
      else match (if (2 < size (t_vars t))%N then emap_find (cs_cache st) e else None) with
           | Some x => cache_hit st e x
           | None => Some (cache_store st e (ceval_term t))
           end
  | Pow b n =>
      match emap_find (cs_cache st) e with
      | Some x => cache_hit st e x
      | None => obnd (ceval st b) (fun r => Some (cache_store r.2 e (r.1 ^+ n)))
      end
  | Bin o a b =>
      match emap_find (cs_cache st) e with
      | Some x => cache_hit st e x
      | None =>
          obnd (ceval st a) (fun r => obnd (ceval r.2 b) (fun s =>
            Some (cache_store s.2 e (match o with ADD => r.1 + s.1 | SUB => r.1 - s.1 | MULT => r.1 * s.1 end))))
      end
  end.

(** expression_evaluator.hpp:215-220 [evaluate] of an object whose cache is [cache] *)
Definition cached_evaluate (cache : seq (expr * R)) (e : expr) : option (R * cstate) :=
  ceval (CState (count_subexprs [::] e) cache) e.

(** ** Visitors *)
(** expression_visitors.hpp:36-70, arithmetic modulo 2^32 *)
Definition u32 (n : N) : N := N.modulo n (N.pow 2 32).
Fixpoint compute_max_degree (e : expr) : N :=
  match e with
  | Term t => u32 (N.of_nat (size (t_vars t)))
  | Pow b n => u32 (N.mul (compute_max_degree b) (N.of_nat n))
  | Bin MULT a b => u32 (N.add (compute_max_degree a) (compute_max_degree b))
  | Bin _ a b => N.max (compute_max_degree a) (compute_max_degree b)
  end.

(** expression_visitors.hpp:75-104: the variables the callback is called on, in order *)
Fixpoint for_each_variable (e : expr) : seq V :=
  match e with
  | Term t => t_vars t
  | Pow b _ => for_each_variable b
  | Bin _ a b => for_each_variable a ++ for_each_variable b
  end.

(** ** Sums of monomials: non_linear_combination.hpp *)
Definition nlc := seq eterm.
(** non_linear_combination.hpp:86-93 *)
Definition nlc_scale (l : nlc) (c : R) : nlc := [seq term_mul t (term_const c) | t <- l].
(** non_linear_combination.hpp:95-102 *)
Definition nlc_add (a b : nlc) : nlc := a ++ b.
(** non_linear_combination.hpp:106-108 *)
Definition nlc_opp (a : nlc) : nlc := nlc_scale a (-1).
(** non_linear_combination.hpp:103-105 *)
Definition nlc_sub (a b : nlc) : nlc := nlc_add a (nlc_opp b).
(** non_linear_combination.hpp:185-197 *)
Definition nlc_mul (a b : nlc) : nlc := flatten [seq [seq term_mul t u | u <- b] | t <- a].
(** non_linear_combination.hpp:110-116 *)
Definition nlc_max_degree (l : nlc) : nat := foldl (fun m t => maxn m (size (t_vars t))) 0%N l.

(** [std::unordered_map<term, T>], keys compared with [operator==] *)
Notation tmap_find := (hm_find term_eqb).
Notation tmap_set := (hm_set term_eqb).

(** non_linear_combination.hpp:125-143 [merge_equal_terms]; the order of the result is unspecified (here: order of
    insertion) *)
Definition merge_map (l : nlc) : seq (eterm * R) :=
  foldl (fun m t => let vars := term_of_vars (t_vars t) in
    if tmap_find m vars is Some c then tmap_set m vars (c + t_coeff t) else tmap_set m vars (t_coeff t)) [::] l.
Definition merge_equal_terms (l : nlc) : nlc :=
  [seq ETerm (t_vars e.1) e.2 | e <- merge_map l & e.2 != 0].

(** non_linear_combination.hpp:145-175 [operator==] *)
Fixpoint nlc_eq_loop (m : seq (eterm * int)) (l : nlc) : option (seq (eterm * int)) :=
  if l is t :: l' then
    if tmap_find m t is Some n then nlc_eq_loop (tmap_set m t (n - 1)) l' else None
  else Some m.
Definition nlc_eqb (a b : nlc) : bool :=
  if size a != size b then false
  else
    let m := foldl (fun m t => if tmap_find m t is Some n then tmap_set m t (n + 1) else tmap_set m t 1) [::] a in
    if nlc_eq_loop m b is Some m' then all (fun e => e.2 == 0) m' else false.

(** expression_visitors.hpp:109-157 [expression_to_non_linear_combination_visitor] *)
Fixpoint to_nlc (e : expr) : nlc :=
  match e with
  | Term t => [:: t]
  | Pow b n => let base := to_nlc b in iter (n - 1) (fun result => nlc_mul result base) base
  | Bin ADD a b => nlc_add (to_nlc a) (to_nlc b)
  | Bin SUB a b => nlc_sub (to_nlc a) (to_nlc b)
  | Bin MULT a b => nlc_mul (to_nlc a) (to_nlc b)
  end.
Definition nlc_convert (e : expr) : nlc := merge_equal_terms (to_nlc e).

(** ** Hashing: expression.hpp:254-265 (terms: coefficient, then the sorted variables), 319-323, 396-401. The hash is
    stored and recomputed by every constructor and assignment, so it is a function of the value. [hV], [hR], [comb], [hn]
    stand for [std::hash] of variables and coefficients, [boost::hash_combine] and [boost::hash] of integers; [ltV] is
    the variables' [operator<]. *)
Variables (hV : V -> nat) (hR : R -> nat) (comb : nat -> nat -> nat) (hn : nat -> nat) (ltV : rel V).
Definition sort_vars (vs : seq V) : seq V := sort (fun a b => ~~ ltV b a) vs.
Definition term_hash (t : eterm) : nat := foldl (fun r v => comb r (hV v)) (hR (t_coeff t)) (sort_vars (t_vars t)).
Definition op_code (o : arith_op) : nat := match o with ADD => 0 | SUB => 1 | MULT => 2 end.
Fixpoint expr_hash (e : expr) : nat :=
  match e with
  | Term t => term_hash t
  | Pow b n => comb (expr_hash b) (hn n)
  | Bin o a b => comb (comb (expr_hash a) (expr_hash b)) (hn (op_code o))
  end.
End Expression.

Arguments term_nil {V R}.
Arguments expr_nil {V R}.

(** expression_visitors.hpp:165-224 [expression_variable_type_converter]: change of the coefficient type; the fields of
    the variables are copied ([conv_var]). *)
Section Convert.
Variables (V V' : eqType) (R R' : comRingType) (conv_var : V -> V') (conv_coeff : R -> R').
Fixpoint convert_expr (e : expr V R) : expr V' R' :=
  match e with
  | Term t => Term (ETerm [seq conv_var v | v <- t_vars t] (conv_coeff (t_coeff t)))
  | Pow b n => Pow (convert_expr b) n
  | Bin ADD a b => e_add (convert_expr a) (convert_expr b)
  | Bin SUB a b => e_sub (convert_expr a) (convert_expr b)
  | Bin MULT a b => e_mul (convert_expr a) (convert_expr b)
  end.
End Convert.
