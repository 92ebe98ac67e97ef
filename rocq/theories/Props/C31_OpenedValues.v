(** C31: the verifier reads only values that were opened. *)
From Coq Require Import NArith.
From mathcomp Require Import all_ssreflect all_algebra.
From Verif.Model Require Import Base OrderedMap HashMap Domain Expression PlonkVariable PlonkTable CycleRepresentation PolysEvaluator
  PermutationArgument GatesArgument LookupArgument Quotient Placeholder.
From Verif.Spec Require Import PlaceholderSpec CircuitSpec.
From Verif.Proofs Require Import NatTac PermProofs TableProofs KzgProofs MapProofs PlaceholderProofs PlaceholderState PlaceholderRun PlaceholderPoints
  PlaceholderReads.
From Verif.Props Require Import C27_LookupAgreement C29_GatesArgument.
Set Implicit Arguments.
Unset Strict Implicit.
Unset Printing Implicit Defensive.
Import GRing.Theory.
Local Open Scope ring_scope.

(** ** Specification *)
Section Spec.
Variable F : fieldType.
(** A variable that the verifier evaluates: of a gate, or of a lookup gate or lookup table if there are lookups; the
    selectors are among them. *)
Definition circuit_variable (cs : constraint_system F) (v : plonk_variable) : Prop :=
  [\/ exists2 g, List.In g (cs_gates cs) & v \in gate_variables g,
      size (cs_lookup_gates cs) != 0%N /\ (exists2 g, List.In g (cs_lookup_gates cs) & v \in lookup_gate_variables g) |
      size (cs_lookup_gates cs) != 0%N /\ (exists2 tb, List.In tb (cs_lookup_tables cs) & v \in lookup_table_variables tb)].
(** The storage [z] holds the claimed values [claimed batch polynomial point] at the [points] of the polynomials of all
    batches; [sizes] are the numbers of polynomials. *)
Definition holds_claims (z : eval_storage F) (points : nat -> nat -> seq F) (sizes : nat -> option nat) (claimed : nat -> nat -> F -> F) : Prop :=
  forall k, om_get z k = omap (fun m => [seq [seq claimed k i x | x <- points k i] | i <- iota 0 m]) (sizes k).
End Spec.

(** ** Theorems *)
Section C31.
Variables (F : fieldType) (omega : F) (C H D : Type) (cd : common_data C H D) (cs : constraint_system F) (d : table_description) (y : F).
Notation copy := (size (cs_copy_constraints cs) != 0%N).
Notation lookup := (size (cs_lookup_gates cs) != 0%N).
Notation n := (size (cd_permuted_columns cd)).
(** the points that the verifier registers (C32) *)
Notation points := (opening_points omega y copy lookup d n (cd_permutation_parts cd) (cd_columns_rotations cd)).
Hypotheses (hrots : columns_rotations cs d = Some (cd_columns_rotations cd)) (hwithin : within d cs).

Lemma circuit_in_table v : circuit_variable cs v -> in_table d v.
Proof.
case: hwithin => h1 h2 [[g hg hv]|[hl [g hg hv]]|[hl [tb hg hv]]]; first exact: (h1 g).
  exact: (proj1 (h2 hl) g).
exact: (proj2 (h2 hl) tb).
Qed.

(** Every variable of the circuit is opened: its point is among those registered for the polynomial of its column. *)
Theorem C31_registered v : circuit_variable cs v ->
  y * omega ^ pv_rotation v \in points (place_of d n v).1 (place_of d n v).2.
Proof.
move=> hv; have hin := circuit_in_table hv; have [i hi [hw [hp _ _]]] := places cd hin.
have hr := rotated hrots hin hi hv; rewrite -hp /place_of_column; case: ltnP => hlt /=; first by apply: map_f.
rewrite ifF ?ifF; last 2 first.
- by move: (2 * n)%N; slia.
- by move: (2 * n)%N; slia.
by rewrite addKn subnKC //; apply: map_f.
Qed.

Variables (claimed : nat -> nat -> F -> F) (z : eval_storage F) (sizes : nat -> option nat).
Hypotheses (hz : holds_claims z points sizes claimed)
  (hparts : copy -> (0 < cd_permutation_parts cd)%N) (hlp : lookup -> (0 < cd_lookup_parts cd)%N)
  (hfixed : sizes FIXED_VALUES_BATCH = Some (2 * n + 2 + (td_constant d + td_selector d))%N)
  (hvariable : sizes VARIABLE_VALUES_BATCH = Some (td_witness d + td_public_input d)%N)
  (hperm : copy || lookup -> sizes PERMUTATION_BATCH = Some (cd_permutation_parts cd + (if lookup then cd_lookup_parts cd else 0))%N).

(** The evaluation map that gates and lookups are evaluated with is built without error, and contains for each variable of
    the circuit the value claimed for it: looking it up never creates a default value. *)
Theorem C31_columns : exists2 columns, columns_at_y z (cd_columns_rotations cd) d n = Some columns &
  forall v, circuit_variable cs v ->
    hm_find (@eq_op [eqType of evaluation_key]) columns (pv_index v, pv_rotation v, pv_type v) =
    Some (claimed (place_of d n v).1 (place_of d n v).2 (y * omega ^ pv_rotation v)).
Proof.
have [m hm hf] := columns_read hrots hz hfixed hvariable; exists m => // v hv.
have hin := circuit_in_table hv; have [i hi _] := places cd hin.
exact: (hf v i hin hi (rotated hrots hin hi hv)).
Qed.

(** The whole verifier: it computes [verifier_on] (Proofs/PlaceholderReads.v), which is the verifier with every access to the
    storage replaced by the claimed value of the polynomial at the point that the protocol asks for; all accesses are to
    points in [points]. The number of sorted lookup columns and of chunks of the quotient are taken from the storage. *)
Theorem C31_reads (T : Type) (tr_start : T) (challenge : T -> F * T) (absorb : T -> C -> T) (absorb_hash : T -> H -> T)
  (X P : Type) (scheme_setup : T -> D -> X * T)
  (scheme_verify_eval : X -> scheme F C -> eval_storage F * P -> omapT C -> T -> option (bool * T))
  (commitments : omapT C) (pi : P) (sorted chunks : nat) (s : scheme F C) :
  all (fun i => i < table_width d)%N (cd_permuted_columns cd) ->
  (lookup -> sizes LOOKUP_BATCH = Some sorted) -> sizes QUOTIENT_BATCH = Some chunks ->
  exists2 columns, (forall v, circuit_variable cs v ->
      hm_find (@eq_op [eqType of evaluation_key]) columns (pv_index v, pv_rotation v, pv_type v) =
      Some (claimed (place_of d n v).1 (place_of d n v).2 (y * omega ^ pv_rotation v))) &
    placeholder_verify omega tr_start challenge absorb absorb_hash scheme_setup scheme_verify_eval cd (Proof commitments y (z, pi)) d cs s =
    verifier_on omega cd cs d y tr_start challenge absorb absorb_hash scheme_setup scheme_verify_eval claimed columns sorted chunks
      (Proof commitments y (z, pi)) s.
Proof.
move=> hcols hso hch.
have [m hf hv] := verifier_reads hrots hparts hz hfixed hvariable hperm hlp tr_start challenge absorb absorb_hash scheme_setup scheme_verify_eval commitments pi s hcols hso hch.
exists m => // v hcv; have hin := circuit_in_table hcv; have [i hi _] := places cd hin.
exact: (hf v i hin hi (rotated hrots hin hi hcv)).
Qed.
End C31.

(** ** The condition [within] is needed
    The verifier does not check that the selector of a gate exists. If it does not, its value is the default zero, and the
    gate contributes nothing, whatever values are claimed. *)
Theorem C31_missing_selector_refuted (F : fieldType) : exists (cs : constraint_system F) (d : table_description) (rots : seq (seq int)) (g : plonk_gate F),
  [/\ columns_rotations cs d = Some rots, cs_gates cs = [:: g], g_constraints g <> [::] &
      forall z permutation_size columns T (challenge : T -> F * T) mask tr,
        columns_at_y z rots d permutation_size = Some columns ->
        hm_find (@eq_op [eqType of evaluation_key]) columns (g_selector g, 0 : int, CSelector) = None /\
        forall f tr', gates_verify_eval challenge (cs_gates cs) columns mask tr = Some (f, tr') -> f = 0].
Proof.
pose g : plonk_gate F := PlonkGate [:: Bin SUB (expr_var _ (PlonkVariable 0 0 true CWitness)) (expr_const _ 1)] 1.
exists (ConstraintSystem [:: g] [::] [::] [::] [::]), (TableDescription 1 0 0 1 3 4), [:: [:: 0]; [:: 0]], g; split=> // z ps columns T challenge mask tr hc.
have hu j : uniq (nth [::] [:: [:: 0 : int]; [:: 0]] j) by case: j => [|[|j]] //=; rewrite nth_nil.
have hn : hm_find (@eq_op [eqType of evaluation_key]) columns (1%N, 0 : int, CSelector) = None.
  by rewrite (columns_at_yP hu hc).
split=> // f tr'; rewrite /gates_verify_eval; case: (challenge tr) => theta tr1 /olP[[[f1 th] ev]].
have -> : ofold (verify_gate theta) (0, 1, columns) [:: g] = verify_gate theta (0, 1, columns) g by rewrite /ofold; case: (verify_gate theta (0, 1, columns) g).
rewrite /verify_gate hn => /olP[r _] [<- _ _] [<- _] /=; by rewrite mulr0 addr0 mul0r.
Qed.

(** ** A circuit and claimed values *)
Section Witness.
Notation F := [fieldType of 'F_17].
Let omega : F := 4%:R.
Definition reads_gate : plonk_gate F :=
  PlonkGate [:: Bin SUB (expr_var _ (PlonkVariable 0 (-1) true CWitness)) (expr_var _ (PlonkVariable 0 1 true CPublicInput))] 0.
Definition reads_cs : constraint_system F := ConstraintSystem [:: reads_gate] [::] [::] [::] [::].
Definition reads_d := TableDescription 1 1 0 1 3 4.
Definition reads_cd : common_data unit unit unit := CommonData tt [:: [:: -1; 0]; [:: 0; 1]; [:: 0]] reads_d 1 tt tt [::] 0 0 0.
Definition reads_sizes (k : nat) : option nat := nth None [:: Some 3; Some 2; None; Some 1]%N k.
Definition reads_points (y : F) := opening_points omega y false false reads_d 0 0 (cd_columns_rotations reads_cd).
Definition reads_z (y : F) (claimed : nat -> nat -> F -> F) : eval_storage F :=
  [seq (k, [seq [seq claimed k i x | x <- reads_points y k i] | i <- iota 0 (odflt 0%N (reads_sizes k))]) | k <- [:: 0; 1; 3]%N].
Example C31_witness (y : F) (claimed : nat -> nat -> F -> F) :
  [/\ columns_rotations reads_cs reads_d = Some (cd_columns_rotations reads_cd), within reads_d reads_cs,
      circuit_variable reads_cs (PlonkVariable 0 (-1) true CWitness) /\ circuit_variable reads_cs (PlonkVariable 0 0 false CSelector) &
      holds_claims (reads_z y claimed) (reads_points y) reads_sizes claimed].
Proof.
split=> //.
- by split=> // g v [<-|//]; rewrite !inE => /or3P[] /eqP->.
- by split; apply: Or31; exists reads_gate; [left| |left|]; rewrite //= !inE.
by move=> [|[|[|[|[|k]]]]] //=; rewrite nth_nil.
Qed.
End Witness.

Print Assumptions C31_registered.
Print Assumptions C31_columns.
Print Assumptions C31_reads.
Print Assumptions C31_missing_selector_refuted.
