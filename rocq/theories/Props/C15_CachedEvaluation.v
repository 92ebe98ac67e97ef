(** C15: cached evaluation equals plain evaluation. *)
From mathcomp Require Import all_ssreflect all_algebra.
From Verif.Model Require Import Base HashMap Expression PlonkVariable.
From Verif.Spec Require Import ExprSpec.
From Verif.Proofs Require Import MapProofs ExprProofs.
Set Implicit Arguments.
Unset Strict Implicit.
Unset Printing Implicit Defensive.
Import GRing.Theory.
Local Open Scope ring_scope.

(** [correct_cache g c]: every cached value is the value of its key under the assignment [g]. *)
Definition correct_cache (V : eqType) (R : comRingType) (g : V -> R) (c : seq (expr V R * R)) : Prop :=
  forall k x, List.In (k, x) c -> x = evaluate g k.

Section C15.
Variables (V : eqType) (R : comRingType) (g : V -> R).
Lemma correct_cacheP c : correct_cache g c <-> cache_ok g c.
Proof.
rewrite /correct_cache /cache_ok; elim: c => [|[k x] c IH] //=; split.
  by move=> h; apply/andP; split; [apply/eqP/h; left | apply/IH => k' x' hi; apply: h; right].
by move=> /andP[/eqP h /IH hc] k' x' [[<- <-]|/hc].
Qed.

(** A fresh evaluator returns the value of the plain one, never decrements a counter below zero (the run is defined), and
    every entry left in its cache is the value of its key. *)
Theorem C15_fresh (e : expr V R) :
  exists st, cached_evaluate g [::] e = Some (evaluate g e, st) /\ correct_cache g (cs_cache st).
Proof.
have [//||st [h1 h2 _]] := @ceval_ok V R g e (CState (count_subexprs [::] e) [::]).
  by move=> k; rewrite count_subexprsP /= leq_addl.
by exists st; split=> //; apply/correct_cacheP.
Qed.

(** So does one called again (its cache holds what earlier calls left) as long as the variables' values are the same. *)
Theorem C15_repeated c (e : expr V R) : correct_cache g c ->
  exists st, cached_evaluate g c e = Some (evaluate g e, st) /\ correct_cache g (cs_cache st).
Proof.
move=> /correct_cacheP ok; have [//||st [h1 h2 _]] := @ceval_ok V R g e (CState (count_subexprs [::] e) c).
  by move=> k; rewrite count_subexprsP /= leq_addl.
by exists st; split=> //; apply/correct_cacheP.
Qed.
End C15.

(** ** Finding: cached entries are not released
    A use count is only decremented on a cache hit, and the first visit is not a hit, so after one call the entry of a
    repeated subexpression is still cached; a second call of [evaluate] after the variables' values have changed returns
    the old value. *)
Theorem C15_cache_emptied_refuted : exists (R : comRingType) (g1 g2 : nat -> R) (e : expr [eqType of nat] R) st r,
  [/\ cached_evaluate g1 [::] e = Some (evaluate g1 e, st), size (cs_cache st) = 1%N,
      cached_evaluate g2 (cs_cache st) e = Some r & r.1 != evaluate g2 e].
Proof.
pose F := [fieldType of 'F_7]; pose p := Pow (expr_var F 0%N) 2.
exists [comRingType of F], (fun=> 2 : F), (fun=> 3 : F), (Bin ADD p p).
by eexists; eexists; split; [vm_compute; reflexivity | vm_compute; reflexivity | vm_compute; reflexivity | ].
Qed.

(** A term of three variables occurring three times, in two different orders of its variables: the first visit stores,
    the others hit the cache. *)
Example C15_witness :
  let F := [fieldType of 'F_17] in
  let g := fun v : nat => v.+2%:R : F in
  let t := Term (ETerm [:: 0%N; 1%N; 2%N] (3 : F)) in
  let u := Term (ETerm [:: 2%N; 0%N; 1%N] (3 : F)) in
  let e := Bin MULT (Bin ADD t u) (Pow (Bin ADD t u) 3) in
  omap fst (cached_evaluate g [::] e) = Some (evaluate g e) /\ evaluate g e = 8 ^+ 4.
Proof. by vm_decide. Qed.

Print Assumptions C15_fresh.
Print Assumptions C15_repeated.
Print Assumptions C15_cache_emptied_refuted.
