(** Vocabulary of the properties of the expressions of pickles: expressions with shared subexpressions, their value, and their
    postfix form as the Kimchi prover index writes it. *)
From mathcomp Require Import all_ssreflect all_algebra.
From Verif.Model Require Import Base PicklesExpr.
Set Implicit Arguments.
Unset Strict Implicit.
Unset Printing Implicit Defensive.
Import GRing.Theory.
Local Open Scope ring_scope.

Section Expr.
Variable F : fieldType.
(** [ECell next c]: a column at the point (or at the next row). [ECache id e]: the value of [e], that is computed only once *)
Inductive expr := EAlpha | EBeta | EGamma | EJoint | EEndo | EMds (i j : nat) | ELit (x : F) | ECell (next : bool) (c : column)
  | EVanishes | ELagrange (i : int) | EPow (e : expr) (k : nat) | EAdd (e e' : expr) | EMul (e e' : expr) | ESub (e e' : expr)
  | EDouble (e : expr) | ESquare (e : expr) | ECache (id : nat) (e : expr).

Variables (n : nat) (omega pt : F) (curr next : evaluations F) (c : constants F).
Definition cell (e : evaluations F) (col : column) : F :=
  match col with
  | CWitness i => nth 0 (ev_w e) i | CZ => ev_zc e | CLookupSorted i => nth 0 (ev_sorted e) i | CLookupAggreg => ev_aggreg e | CLookupTable => ev_table e
  | CLookupRuntimeTable => ev_runtime e | CIndex GPoseidon => ev_poseidon e | CIndex GGeneric => ev_generic e | _ => 0
  end.
Fixpoint value (e : expr) : F :=
  match e with
  | EAlpha => c_alpha c | EBeta => c_beta c | EGamma => c_gamma c | EJoint => c_joint_combiner c | EEndo => c_endo c
  | EMds i j => nth 0 (nth [::] (c_mds c) i) j | ELit x => x
  | ECell b col => cell (if b then next else curr) col
  | EVanishes => \prod_(n - 4 <= k < n) (pt - omega ^+ k)
  | ELagrange i => \prod_(k < n | omega ^+ k != omega ^ i) (pt - omega ^+ k)
  | EPow e k => value e ^+ k | EAdd e e' => value e + value e' | EMul e e' => value e * value e' | ESub e e' => value e - value e'
  | EDouble e => value e *+ 2 | ESquare e => value e ^+ 2 | ECache _ e => value e
  end.
(** The indices are in range. Columns that the evaluations do not contain are not used. *)
Definition present (e : evaluations F) (col : column) : bool :=
  match col with
  | CWitness i => (i < size (ev_w e))%N | CLookupSorted i => (i < size (ev_sorted e))%N
  | CLookupKindIndex | CLookupRuntimeSelector | CIndex (GOther _) | CCoefficient _ => false | _ => true
  end.
Fixpoint in_range (e : expr) : bool :=
  match e with
  | EMds i j => (i < size (c_mds c))%N && (j < size (nth [::] (c_mds c) i))%N
  | ECell b col => present (if b then next else curr) col
  | EPow e _ | EDouble e | ESquare e | ECache _ e => in_range e
  | EAdd e e' | EMul e e' | ESub e e' => in_range e && in_range e'
  | _ => true
  end.
(** Every name of a shared subexpression stands for one expression *)
Fixpoint consistent (f : nat -> expr) (e : expr) : Prop :=
  match e with
  | ECache id e => e = f id /\ consistent f e
  | EPow e _ | EDouble e | ESquare e => consistent f e
  | EAdd e e' | EMul e e' | ESub e e' => consistent f e /\ consistent f e'
  | _ => True
  end.
(** The postfix form; [cache]: the names stored before *)
Fixpoint postfix (cache : seq nat) (e : expr) : seq (token F) * seq nat :=
  match e with
  | EAlpha => ([:: TAlpha F], cache) | EBeta => ([:: TBeta F], cache) | EGamma => ([:: TGamma F], cache) | EJoint => ([:: TJointCombiner F], cache)
  | EEndo => ([:: TEndoCoefficient F], cache) | EMds i j => ([:: TMds F i j], cache) | ELit x => ([:: TLiteral x], cache)
  | ECell b col => ([:: TCell F (if b then 1%N else 0%N) col], cache) | EVanishes => ([:: TVanishesOnLast4Rows F], cache)
  | ELagrange i => ([:: TUnnormalizedLagrangeBasis F i], cache)
  | EPow e k => let (t, cache) := postfix cache e in (t ++ [:: TPow F k], cache)
  | EAdd e e' => let (t, cache) := postfix cache e in let (t', cache) := postfix cache e' in (t ++ t' ++ [:: TAdd F], cache)
  | EMul e e' => let (t, cache) := postfix cache e in let (t', cache) := postfix cache e' in (t ++ t' ++ [:: TMul F], cache)
  | ESub e e' => let (t, cache) := postfix cache e in let (t', cache) := postfix cache e' in (t ++ t' ++ [:: TSub F], cache)
  | EDouble e => let (t, cache) := postfix cache e in (t ++ [:: TDup F; TAdd F], cache)
  | ESquare e => let (t, cache) := postfix cache e in (t ++ [:: TDup F; TMul F], cache)
  | ECache id e => if id \in cache then ([:: TLoad F (index id cache)], cache)
                   else let (t, cache) := postfix cache e in (t ++ [:: TStore F], rcons cache id)
  end.
(** Token lists that leave one value: the number of values on the stack and in the cache *)
Definition count_step (st : option (nat * nat)) (t : token F) : option (nat * nat) :=
  if st is Some (d, k) then
    match t with
    | TDup => if (0 < d)%N then Some (d.+1, k) else None
    | TPow _ => if (0 < d)%N then Some (d, k) else None
    | TStore => if (0 < d)%N then Some (d, k.+1) else None
    | TAdd | TMul | TSub => if (1 < d)%N then Some (d.-1, k) else None
    | TLoad j => if (j < k)%N then Some (d.+1, k) else None
    | TMds i j => if (i < size (c_mds c))%N && (j < size (nth [::] (c_mds c) i))%N then Some (d.+1, k) else None
    | TCell row col =>
        if (row < 2)%N && match col with CWitness i => (i < size (ev_w (if row == 1%N then next else curr)))%N
          | CLookupSorted i => (i < size (ev_sorted (if row == 1%N then next else curr)))%N | _ => true end then Some (d.+1, k) else None
    | _ => Some (d.+1, k)
    end
  else None.
Definition leaves_one_value (toks : seq (token F)) : bool := if foldl count_step (Some (0, 0)%N) toks is Some (1%N, _) then true else false.
End Expr.
(** A coefficient vector in blocks of [m] *)
Definition blocks (F : fieldType) (m : nat) (a : seq F) : seq (seq F) := [seq take m (drop (m * i) a) | i <- iota 0 (size a).+1].
