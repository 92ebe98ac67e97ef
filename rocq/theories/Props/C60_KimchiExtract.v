(** C60: soundness of the inner product argument of the Kimchi polynomial commitment. *)
From mathcomp Require Import all_ssreflect all_algebra.
From Verif.Model Require Import Base OrderedMap Domain KnowledgeCommitment KimchiPedersen.
From Verif.Spec Require Import KimchiSpec KimchiExtractSpec.
From Verif.Proofs Require Import KimchiProofs KimchiExtractProofs.
From Verif.Props Require Import C05_R1csToQap C08_Groth16Complete C59_KimchiPedersen.
Set Implicit Arguments.
Unset Strict Implicit.
Unset Printing Implicit Defensive.
Import GRing.Theory.
Local Open Scope ring_scope.

(** Extraction. There is a function of the field elements of the runs (three challenges for each round, two last challenges) that
    finds, for every group, a polynomial [a] and a blinding element [w] such that the combined commitment and the claimed
    value [v] satisfy P + v u = commit (a, w) + a(points) u. *)
Theorem C60_extract (F : fieldType) : exists extract : responses F -> {poly F} * F,
  forall (V : lmodType F) (g : seq V) (h u : V) (xi : F) (comms : seq V) (v : F) (points : seq F) (r : F) (k : nat) (t : responses F),
  run_rounds k t -> runs_accepted g h u xi comms v points r [::] [::] t ->
  let: (a, w) := extract t in
  (size a <= 2 ^ k)%N /\ power_sum xi comms + v *: u = pedersen g h a w + combined_value points r a *: u.
Proof.
exists (extract [::]) => V g h u xi comms v points r k t hk ht.
have := extract_size [::] hk; have := @extractE _ _ g h u xi comms v points r t [::] [::] erefl ht; rewrite /statement /= big_nil addr0 add0n.
by case: (extract _ _) => a w /= e sz; split.
Qed.

(** Evaluation binding. The number of bases is a power of two. A prover that knows the polynomial [p] of the combined commitment and
    is accepted for a value [v] other than its value at the points gives a relation between the bases, h and u whose
    coefficients are not all 0: the coefficients of [p - a], [v] minus the value of [a], and [w0 - w]. *)
Theorem C60_binding (F : fieldType) : exists extract : responses F -> {poly F} * F,
  forall (V : lmodType F) (g : seq V) (h u : V) (xi : F) (comms : seq V) (v : F) (points : seq F) (r : F) (k : nat) (t : responses F)
    (p : {poly F}) (w0 : F),
  size g = (2 ^ k)%N -> run_rounds k t -> runs_accepted g h u xi comms v points r [::] [::] t ->
  (size p <= size g)%N -> power_sum xi comms = pedersen g h p w0 -> v != combined_value points r p ->
  let: (a, w) := extract t in let beta := v - combined_value points r a in
  \sum_(i < size g) (p - a)`_i *: nth 0 g i + beta *: u + (w0 - w) *: h = 0 /\
  ((exists i : 'I_(size g), (p - a)`_i != 0) \/ beta != 0).
Proof.
have [ex H] := C60_extract F; exists ex => V g h u xi comms v points r k t p w0 sg hk ht sp ep hv.
have := H V g h u xi comms v points r k t hk ht; case: (ex t) => a w [sa e]; split.
  have -> : \sum_(i < size g) (p - a)`_i *: nth 0 g i = \sum_(i < size g) p`_i *: nth 0 g i - \sum_(i < size g) a`_i *: nth 0 g i.
    by rewrite -sumrB; apply: eq_bigr => i _; rewrite coefB scalerBl.
  move/eqP: e; rewrite ep /pedersen -subr_eq0 => /eqP e; rewrite -[RHS]e !scalerBl !opprD.
  by rewrite [LHS](AC (2*2*2) ((1*5*3)*(2*6*4))).
case hb: (v - combined_value points r a != 0); [by right|left].
apply/existsP; case hx: [exists _, _] => //; move/negbT: hx; rewrite negb_exists => /forallP hz; move/negbFE: hb; rewrite subr_eq0 => /eqP ev.
case/negP: hv; rewrite ev; apply/eqP; congr combined_value; apply/esym/eqP; rewrite -subr_eq0; apply/eqP/polyP => i; rewrite coef0.
case: (ltnP i (size g)) => hi; first by have := hz (Ordinal hi); rewrite negbK => /eqP.
by rewrite coefB !nth_default ?subr0 // ?(leq_trans sa) -?sg // (leq_trans sp).
Qed.

Section C60.
Variables (F : fieldType) (V : lmodType F) (g : seq V) (h : V).
Variables (S : Type) (absorb_fr : S -> F -> S) (draw_u : S -> V * S) (absorb_g : S -> V -> S) (squeeze : S -> F * S).
Notation draws := (draws g absorb_fr draw_u absorb_g squeeze).
Notation verify := (ipa_verify g h absorb_fr draw_u absorb_g squeeze).

(** If the number of bases is not a power of two, the padding of the bases with 0 lets a prover open a commitment to any polynomial at
    any point but 0 to any value: both equations of the batch hold and the verifier accepts, alone and among others,
    unless a challenge is 0. *)
Theorem C60_padding_forged (s : S) (p : seq F) (w x xi r v : F) : (0 < size p <= size g)%N -> (size g < 2 ^ rounds g)%N -> x != 0 ->
  exists o : ipa_proof V, let b := Batch s [:: Evaluation (commitment g h p None [:: w] 0).1 [:: [:: v]] None] [:: x] xi r o in
  exists d, draws b = Some d /\ (all (fun y => y != 0) d.1.2 ->
    [/\ batch_opening h b d = 0, batch_base g b d = 0 & forall rho sigma m, verify rho sigma (nseq m b) = Some true]).
Proof.
move=> hp hg x0; have [o [hl [d [hd hc]]]] := @claim_forged _ _ g h _ absorb_fr draw_u absorb_g squeeze s p w x xi r v hp hg x0.
exists o, d; split=> // hz; have [e1 e2] := hc hz; split=> // rho sigma m.
have hd' : [seq draws b | b <- nseq m (claim g h s p w x xi r v o)] = [seq Some d | d <- nseq m d] by rewrite !map_nseq -hd.
rewrite -[Batch _ _ _ _ _ _]/(claim g h s p w x xi r v o) (C59_exact h _ _ hd') ?all_nseq ?hl ?orbT //; congr Some; apply/eqP/big1 => i _.
have z (f : batch V S * (F * V * seq F * F) -> V) : f (claim g h s p w x xi r v o, d) = 0 ->
    nth 0 [seq f q | q <- zip (nseq m (claim g h s p w x xi r v o)) (nseq m d)] i = 0.
  move: (nat_of_ord i) => n e; by elim: m n {hd' i} => [|m ih] [|n] //=.
by rewrite (z (fun q => batch_opening h q.1 q.2)) // (z (fun q => batch_base g q.1 q.2)) // !scaler0 addr0.
Qed.
End C60.

(** Concrete runs over 'F_17: 2 bases, the polynomial 3 + 4 X, the points 2 and 10; the prover answers the challenges 1, 2, 3 of the
    round, and the last challenges 1 and 2 *)
Definition C60_g : seq C08_V := [:: (3%:R : C05_F); (5%:R : C05_F)].
Definition C60_h : C08_V := (11%:R : C05_F).
Definition C60_u : C08_V := (2%:R : C05_F).
Definition C60_p : seq C05_F := [:: 3%:R; 4%:R].
Definition C60_points : seq C05_F := [:: 2%:R; 10%:R].
Definition C60_v : C05_F := peval [seq peval C60_p x | x <- C60_points] 6%:R.
Definition C60_comms : seq C08_V := [:: multiexp C60_g C60_p + (7%:R : C05_F) *: C60_h].
Definition C60_run (x : C05_F) :=
  ipa_rounds C60_h (fun (s : C05_F) (_ : C08_V) => s) (fun s => (s, s)) C60_u 1 [:: (9%:R, 8%:R)] C60_g C60_p
    [seq b_entry 6%:R C60_points i | i <- [:: 0%N; 1%N]] x.
Definition C60_last (x : C05_F) : responses C05_F :=
  let a0 := (C60_run x).1.2.1.1 in let w := 7%:R + (9%:R * x^-1 + 8%:R * x) in Last 1 a0 w 2%:R (2%:R * a0) (2%:R * w).
Definition C60_tree : responses C05_F := Round 1 (C60_last 1) 2%:R (C60_last 2%:R) 3%:R (C60_last 3%:R).
Example C60_extract_witness : run_rounds 1 C60_tree /\
  runs_accepted C60_g C60_h C60_u 5%:R C60_comms C60_v C60_points 6%:R [::] [::] C60_tree /\ size C60_g = 2%N.
Proof.
split; [by []|split; last by []]; split; first by vm_compute.
exists (head (0, 0) (C60_run 1).1.1.1).
by split; (split; [by vm_compute|exists 0; split; apply: run_acceptedB; vm_compute]).
Qed.
(** A commitment with 3 bases opened to a value that the polynomial does not have *)
Example C60_padding_witness : (0 < size C60_p <= size C59_g)%N /\ (size C59_g < 2 ^ rounds C59_g)%N /\
  ((10%:R : C05_F) != 0) /\ peval C60_p 10%:R != 5%:R :> C05_F.
Proof. by split; [vm_compute|split; [vm_compute|split; vm_compute]]. Qed.

Print Assumptions C60_extract.
Print Assumptions C60_binding.
Print Assumptions C60_padding_forged.
