(** Proofs about the values that the Placeholder verifier reads. *)
From Coq Require Import NArith.
From mathcomp Require Import all_ssreflect all_algebra.
From Verif.Model Require Import Base OrderedMap HashMap Domain Expression PlonkVariable PlonkTable CycleRepresentation PolysEvaluator
  PermutationArgument GatesArgument LookupArgument Quotient Placeholder.
From Verif.Spec Require Import PlaceholderSpec CircuitSpec.
From Verif.Proofs Require Import NatTac DomainProofs PermProofs TableProofs KzgProofs EvaluatorProofs MapProofs
  PlaceholderProofs PlaceholderState PlaceholderRun PlaceholderPoints.
From Verif.Props Require Import C27_LookupAgreement C29_GatesArgument.
Set Implicit Arguments.
Unset Strict Implicit.
Unset Printing Implicit Defensive.
Import GRing.Theory.
Local Open Scope ring_scope.

Lemma in_flatten (A : Type) (B : eqType) (f : A -> seq B) (s : seq A) x (b : B) : List.In x s -> b \in f x -> b \in flatten [seq f x | x <- s].
Proof. by elim: s => //= a s ih; rewrite mem_cat => -[->|/ih h] hb; rewrite ?hb // h // orbT. Qed.

Section Reads.
Variables (F : fieldType) (omega : F).
Variables (C H D : Type) (cd : common_data C H D) (cs : constraint_system F) (d : table_description).
Notation copy := (size (cs_copy_constraints cs) != 0%N).
Notation lookup := (size (cs_lookup_gates cs) != 0%N).
Notation n := (size (cd_permuted_columns cd)).
Notation rots := (cd_columns_rotations cd).
Notation parts := (cd_permutation_parts cd).
Notation points y := (opening_points omega y copy lookup d n parts rots).
Lemma places v : in_table d v -> exists2 i, global_index d v = Some i & (i < table_width d)%N /\
  [/\ place_of_column d n i = place_of d n v, ((place_of d n v).1, (place_of d n v).2, i) = odflt (0,0,0)%N (column_place d n (pv_type v) (pv_index v)) &
      isSome (column_place d n (pv_type v) (pv_index v))].
Proof.
case: v => i r b ct; rewrite /in_table /global_index /place_of /place_of_column /column_place /table_width /=.
case: ct => //= hi; eexists; try reflexivity; (split; first by move: hi; slia); rewrite ?hi /=.
- by split=> //; rewrite ifT //; move: hi; slia.
- by split=> //; rewrite ifT // ltn_add2l.
- by rewrite ltnNge leq_addr /= addKn [(n * 2)%N]mulnC.
have e : (td_witness d + td_public_input d + td_constant d + i = td_witness d + td_public_input d + (td_constant d + i))%N by rewrite addnA.
by rewrite e ltnNge leq_addr /= addKn addnA [(n * 2)%N]mulnC.
Qed.

Hypotheses (hrots : columns_rotations cs d = Some rots) (hparts : copy -> (0 < parts)%N).

Variables (y : F) (phi : nat -> nat -> F -> F) (z : eval_storage F) (sizes : nat -> option nat).
Hypothesis hz : forall k, om_get z k = omap (fun m => [seq [seq phi k i x | x <- points y k i] | i <- iota 0 m]) (sizes k).
Hypotheses (hfixed : sizes FIXED_VALUES_BATCH = Some (2 * n + 2 + (td_constant d + td_selector d))%N)
  (hvariable : sizes VARIABLE_VALUES_BATCH = Some (td_witness d + td_public_input d)%N)
  (hperm : copy || lookup -> sizes PERMUTATION_BATCH = Some (parts + (if lookup then cd_lookup_parts cd else 0))%N)
  (hlp : lookup -> (0 < cd_lookup_parts cd)%N).

Lemma z_getE k m i j : sizes k = Some m -> (i < m)%N -> (j < size (points y k i))%N -> z_get z k i j = Some (phi k i (nth 0 (points y k i) j)).
Proof.
move=> hs hi hj; rewrite /z_get hz hs /= (vget_nth [::]) ?size_map ?size_iota //= (nth_map 0%N) ?size_iota // nth_iota // add0n.
by rewrite (vget_nth 0) ?size_map // (nth_map 0).
Qed.
Lemma rotsP : [/\ size rots = table_width d, forall j, uniq (nth [::] rots j) & forall j, (j < table_width d)%N -> 0 \in nth [::] rots j].
Proof.
have [hs h0 _ _] := columns_rotationsP hrots; split=> // j; last by case/h0.
case: (ltnP j (table_width d)) => hj; last by rewrite nth_default // hs.
by have [h _] := h0 _ hj; apply: Order.POrderTheory.lt_sorted_uniq.
Qed.
Lemma points_fixed j : points y FIXED_VALUES_BATCH (2 * n + 2 + j) = column_points omega y rots (td_witness d + td_public_input d + j).
Proof.
rewrite /opening_points /FIXED_VALUES_BATCH ifF; last by move: (2 * n)%N; slia.
by rewrite ifF ?addKn //; move: (2 * n)%N; slia.
Qed.
(** a column, by its number *)
Lemma column_read i r : (i < table_width d)%N -> r \in nth [::] rots i ->
  z_get z (place_of_column d n i).1 (place_of_column d n i).2 (index r (nth [::] rots i)) =
  Some (phi (place_of_column d n i).1 (place_of_column d n i).2 (y * omega ^ r)).
Proof.
move=> hi hr; have hix : (index r (nth [::] rots i) < size (nth [::] rots i))%N by rewrite index_mem.
have hn : nth 0 [seq y * omega ^ r0 | r0 <- nth [::] rots i] (index r (nth [::] rots i)) = y * omega ^ r.
  by rewrite (nth_map 0) ?nth_index.
rewrite /place_of_column; case: ltnP => hv /=.
  by rewrite (z_getE hvariable) /= /column_points ?size_map // hn.
have e := points_fixed (i - (td_witness d + td_public_input d)); rewrite subnKC // in e.
rewrite (z_getE hfixed) ?e /column_points ?size_map ?hn //.
by move: hv hi; rewrite /table_width; move: (2 * n)%N; slia.
Qed.
(** The evaluation map *)
Notation find := (hm_find (@eq_op [eqType of evaluation_key])).
Lemma columns_read : exists2 m, columns_at_y z rots d n = Some m &
  forall v i, in_table d v -> global_index d v = Some i -> pv_rotation v \in nth [::] rots i ->
    find m (pv_index v, pv_rotation v, pv_type v) = Some (phi (place_of d n v).1 (place_of d n v).2 (y * omega ^ pv_rotation v)).
Proof.
have [hs hu h0] := rotsP.
have hcp k pi g ct i : column_place d n ct i = Some (k, pi, g) -> (g < table_width d)%N /\ place_of_column d n g = (k, pi).
  move=> e; have hin : in_table d (PlonkVariable i 0 false ct) by move: e; rewrite /in_table /=; case: (ct) => //=; case: ltnP.
  have [g' hg [hw [hpl e' _]]] := places hin; move: e' hw hpl; rewrite /= e /= => -[h1 h2 ->] hw hpl; split=> //.
  by rewrite hpl [LHS]surjective_pairing h1 h2.
have [||m hm] := @columns_at_y_ok F z rots d n; first by rewrite hs.
  move=> k pi g ct i j /hcp[hg hpl] hj; have hin : nth 0 (nth [::] rots g) j \in nth [::] rots g by apply: mem_nth.
  by have := column_read hg hin; rewrite hpl /= index_uniq // => ->.
exists m => // v i hv hi hr; rewrite (columns_at_yP hu hm).
have [i' hi' [hw [hp1 hp2]]] := places hv; case e : (column_place _ _ _ _) hp2 => [[[k pi] g]|] //= hp2 _.
rewrite hi in hi'; case: hi' => hi'; subst i'; case: hp2 => h1 h2 h3; subst k pi g.
by rewrite hr; have := column_read hw hr; rewrite hp1.
Qed.

(** Everything else *)
Lemma points_at_y k i : (k == FIXED_VALUES_BATCH) && (i < 2 * n + 2)%N || (PERMUTATION_BATCH <= k)%N -> (0 < size (points y k i))%N /\ nth 0 (points y k i) 0 = y.
Proof.
case: k => [|[|[|[|k]]]] //=; rewrite orbF => hi; case: ifP => // _.
by rewrite hi.
Qed.
Lemma read_y k m i : sizes k = Some m -> (i < m)%N -> (k == FIXED_VALUES_BATCH) && (i < 2 * n + 2)%N || (PERMUTATION_BATCH <= k)%N ->
  z_get z k i 0 = Some (phi k i y).
Proof. by move=> hs hi /(points_at_y)[h1 h2]; rewrite (z_getE hs hi h1) h2. Qed.
Lemma read_fixed i : (i < 2 * n + 2)%N -> z_get z FIXED_VALUES_BATCH i 0 = Some (phi FIXED_VALUES_BATCH i y).
Proof. by move=> hi; rewrite (read_y hfixed) ?hi //; move: hi; move: (2 * n)%N; slia. Qed.
Lemma read_special i : (i < 2)%N -> z_get z FIXED_VALUES_BATCH (2 * n + i) 1 = Some (phi FIXED_VALUES_BATCH (2 * n + i) (y * omega)).
Proof.
move=> hi; have e : points y FIXED_VALUES_BATCH (2 * n + i) = [:: y; y * omega].
  by rewrite /opening_points /FIXED_VALUES_BATCH ltnNge leq_addr /= ltn_add2l hi.
by rewrite (z_getE hfixed) ?e //; move: hi; move: (2 * n)%N; slia.
Qed.
Lemma read_perm i : copy || lookup -> (i < parts + (if lookup then cd_lookup_parts cd else 0))%N ->
  z_get z PERMUTATION_BATCH i 0 = Some (phi PERMUTATION_BATCH i y).
Proof. by move=> h hi; rewrite (read_y (hperm h)). Qed.
Lemma omapM_read (f : nat -> option F) (g : nat -> F) a m : (forall i, (a <= i < a + m)%N -> f i = Some (g i)) -> omapM f (iota a m) = Some [seq g i | i <- iota a m].
Proof. by move=> h; apply: omapM_some => i; rewrite mem_iota; apply: h. Qed.

Section Perm.
Variables (T : Type) (challenge : T -> F * T).
Hypothesis hcols : all (fun i => i < table_width d)%N (cd_permuted_columns cd).
Lemma permutation_read ql qb tr : verifier_permutation omega challenge cd cs d z n y ql qb tr =
  if copy then
    perm_verify_eval challenge (cd_max_quotient_chunks cd) parts (lagrange_polynomial omega (td_rows (cd_desc cd)) 0)
      [seq phi FIXED_VALUES_BATCH i y | i <- iota 0 n] [seq phi FIXED_VALUES_BATCH (n + i) y | i <- iota 0 n] ql qb y
      [seq phi (place_of_column d n i).1 (place_of_column d n i).2 y | i <- cd_permuted_columns cd]
      (phi PERMUTATION_BATCH 0 y) (phi PERMUTATION_BATCH 0 (y * omega)) [seq phi PERMUTATION_BATCH i y | i <- iota 1 (parts - 1)] tr
  else Some ([:: 0; 0; 0], tr).
Proof.
rewrite /verifier_permutation; case: ifP => // hc; have [hs hu h0] := rotsP; have hp := hparts hc.
rewrite (omapM_read (g := fun i => phi FIXED_VALUES_BATCH i y)) /=; last by move=> i hi; apply: read_fixed; move: hi; slia.
rewrite (omapM_read (g := fun i => phi FIXED_VALUES_BATCH (n + i) y)) /=; last by move=> i hi; apply: read_fixed; move: hi; slia.
rewrite (omapM_read (g := fun j => phi (place_of_column d n (nth 0%N (cd_permuted_columns cd) j)).1
   (place_of_column d n (nth 0%N (cd_permuted_columns cd) j)).2 y)) /=; last first.
  move=> j; rewrite add0n => hj; rewrite (vget_nth 0%N) //=.
  have hw := allP hcols _ (mem_nth 0%N hj); move: (nth _ _ _) hw => i hw.
  rewrite /permuted_value (vget_nth [::]) ?hs //= -/(index _ _).
  have := column_read hw (h0 _ hw); rewrite expr0z mulr1 /place_of_column; case: ifP => //= _.
  by rewrite -[(i - _ + n * 2 + 2)%N]addnA [(i - _ + _)%N]addnC [(n * 2)%N]mulnC.
rewrite (omapM_read (g := fun i => phi PERMUTATION_BATCH i y)) /=; last by move=> i hi; apply: read_perm; rewrite ?hc //; move: hi hp; slia.
rewrite read_perm ?hc //=; last by move: hp; slia.
rewrite (z_getE (hperm _)) ?hc //=; last by move: hp; slia.
have e (f : nat -> F) : [seq f i | i <- cd_permuted_columns cd] = [seq f (nth 0%N (cd_permuted_columns cd) j) | j <- iota 0 n].
  by rewrite -[in LHS](mkseq_nth 0%N (cd_permuted_columns cd)) -map_comp.
by rewrite e.
Qed.

Variables (absorb : T -> C -> T).
Lemma lookup_read commitments ssv columns tr m : (lookup -> sizes LOOKUP_BATCH = Some m) ->
  verifier_lookup challenge absorb cd cs z commitments ssv columns tr =
  if lookup then
    olet c <- om_get commitments LOOKUP_BATCH;
    lookup_verify_eval challenge absorb (cs_lookup_gates cs) (cs_lookup_tables cs) (cd_max_quotient_chunks cd)
      ssv [:: phi FIXED_VALUES_BATCH (2 * n) (y * omega); phi FIXED_VALUES_BATCH (2 * n + 1) (y * omega)] columns
      [seq [:: phi LOOKUP_BATCH i y; phi LOOKUP_BATCH i (y * omega); phi LOOKUP_BATCH i (y * omega ^+ td_usable_rows d)] | i <- iota 0 m]
      [:: phi PERMUTATION_BATCH parts y; phi PERMUTATION_BATCH parts (y * omega)]
      [seq phi PERMUTATION_BATCH i y | i <- iota (parts + 1) (cd_lookup_parts cd - 1)] c tr
  else Some ([:: 0; 0; 0; 0], columns, tr).
Proof.
rewrite /verifier_lookup; case: ifP => // hl hm; have {}hm := hm isT; have hlp' := hlp hl; have hcl : copy || lookup by rewrite hl orbT.
have := @read_special 0 isT; rewrite addn0 => ->; rewrite /= read_special //=.
rewrite (omapM_read (g := fun i => phi PERMUTATION_BATCH i y)) /=; last first.
  by move=> i hi; apply: read_perm; rewrite // hl; move: hi hlp'; slia.
rewrite !hz hm (hperm hcl) hl /= (vget_nth [::]) ?size_map ?size_iota /=; last by move: hlp'; slia.
rewrite (nth_map 0%N) ?size_iota ?nth_iota /= ?add0n ?eqxx /=; try by move: hlp'; slia.
have -> : copy && (parts == 0)%N = false by case hc : (copy) => //=; have := hparts hc; case: parts.
by [].
Qed.
End Perm.

(** The variables of the circuit are opened. *)
Lemma rotated v i : in_table d v -> global_index d v = Some i ->
  [\/ exists2 g, List.In g (cs_gates cs) & v \in gate_variables g,
      lookup /\ (exists2 g, List.In g (cs_lookup_gates cs) & v \in lookup_gate_variables g) |
      lookup /\ (exists2 tb, List.In tb (cs_lookup_tables cs) & v \in lookup_table_variables tb)] ->
  pv_rotation v \in nth [::] rots i.
Proof.
have [hs hu h0] := rotsP; have [_ _ hg hlk] := columns_rotationsP hrots; move=> hin hi.
have hw : (i < table_width d)%N by have [i' hi' [hw _]] := places hin; move: hi'; rewrite hi => -[->].
case=> [[g hgi]|[hl [g hgi]]|[hl [tb htb]]].
- rewrite inE => /orP[/eqP->|hv]; first exact: h0.
  by have /andP[] := hg v i (in_flatten (f := fun g => flatten [seq for_each_variable c | c <- g_constraints g]) hgi hv) hi.
- rewrite inE => /orP[/eqP->|hv]; first exact: h0.
  have [h _] := hlk hl; have /andP[] // := h v i (in_flatten
    (f := fun g => flatten [seq flatten [seq for_each_variable e | e <- lc_lookup_input c] | c <- lg_constraints g]) hgi hv) hi.
rewrite /lookup_table_variables /= cats0 inE mem_cat => /or3P[/eqP->|/mapP[u _ ->]|]; try exact: h0.
have [_ h] := hlk hl; pose keys tb := ((td_witness d + td_public_input d + td_constant d + lt_tag_index tb)%N, 1 : int) ::
  [seq ((td_witness d + td_public_input d + pv_index v)%N, 1 : int) | v <- flatten (lt_lookup_options tb)].
have hk r : (i, r) \in keys tb -> r \in nth [::] rots i by move=> hm; have /andP[] := h i r (in_flatten (f := keys) htb hm).
rewrite inE => /orP[/eqP e|/mapP[u hu' e]].
  by move: hi; rewrite e /global_index /= => -[hi]; apply: hk; rewrite -hi mem_head.
by move: hi; rewrite e /global_index /= => -[hi]; apply: hk; rewrite -hi in_cons; apply/orP; right; apply/mapP; exists u.
Qed.

(** ** The verifier, given the claimed value of every polynomial at every point *)
Variables (T : Type) (tr_start : T) (challenge : T -> F * T) (absorb : T -> C -> T) (absorb_hash : T -> H -> T).
Variables (X P : Type) (scheme_setup : T -> D -> X * T)
  (scheme_verify_eval : X -> scheme F C -> eval_storage F * P -> omapT C -> T -> option (bool * T)).
(** [value batch polynomial point]; [columns] are the values of the variables of the circuit; [sorted] and [chunks] the
    numbers of sorted lookup columns and of chunks of the quotient. *)
Definition verifier_on (value : nat -> nat -> F -> F) (columns : evaluation_map F) (sorted chunks : nat) (pf : proof F C P) (s : scheme F C) : option bool :=
  let rows := td_rows (cd_desc cd) in
  let (data, tr) := scheme_setup (initial_transcript tr_start absorb absorb_hash cd) (cd_scheme_data cd) in
  olet c <- om_get (pf_commitments pf) VARIABLE_VALUES_BATCH;
  let tr := absorb tr c in
  let q_last := value FIXED_VALUES_BATCH (2 * n)%N y in
  let q_blind := value FIXED_VALUES_BATCH (2 * n + 1)%N y in
  olet r <- (if copy then
      perm_verify_eval challenge (cd_max_quotient_chunks cd) parts (lagrange_polynomial omega rows 0)
        [seq value FIXED_VALUES_BATCH i y | i <- iota 0 n] [seq value FIXED_VALUES_BATCH (n + i)%N y | i <- iota 0 n] q_last q_blind y
        [seq value (place_of_column d n i).1 (place_of_column d n i).2 y | i <- cd_permuted_columns cd]
        (value PERMUTATION_BATCH 0%N y) (value PERMUTATION_BATCH 0%N (y * omega)) [seq value PERMUTATION_BATCH i y | i <- iota 1 (parts - 1)] tr
    else Some ([:: 0; 0; 0], tr));
  let: (F_perm, tr) := r in
  olet r <- (if lookup then
      olet c <- om_get (pf_commitments pf) LOOKUP_BATCH;
      lookup_verify_eval challenge absorb (cs_lookup_gates cs) (cs_lookup_tables cs) (cd_max_quotient_chunks cd)
        [:: (lagrange_polynomial omega rows 0).[y]; q_last; q_blind]
        [:: value FIXED_VALUES_BATCH (2 * n)%N (y * omega); value FIXED_VALUES_BATCH (2 * n + 1)%N (y * omega)] columns
        [seq [:: value LOOKUP_BATCH i y; value LOOKUP_BATCH i (y * omega); value LOOKUP_BATCH i (y * omega ^+ td_usable_rows d)] | i <- iota 0 sorted]
        [:: value PERMUTATION_BATCH parts y; value PERMUTATION_BATCH parts (y * omega)]
        [seq value PERMUTATION_BATCH i y | i <- iota (parts + 1) (cd_lookup_parts cd - 1)] c tr
    else Some ([:: 0; 0; 0; 0], columns, tr));
  let: (F_lookup, _, tr) := r in
  olet tr <- (if copy || lookup then olet c <- om_get (pf_commitments pf) PERMUTATION_BATCH; Some (absorb tr c) else Some tr);
  olet r <- gates_verify_eval challenge (cs_gates cs) columns (1 - q_last - q_blind) tr;
  let: (F_gates, tr) := r in
  let (alphas, tr) := draw challenge 8 tr in
  olet c <- om_get (pf_commitments pf) QUOTIENT_BATCH;
  let (transcript_y, tr) := challenge (absorb tr c) in
  oguard transcript_y == y;
  olet s <- obnd (verifier_batch_sizes cs (pf_eval_proof pf).1 s) (verifier_evaluation_points omega cd cs d y);
  olet r <- scheme_verify_eval data s (pf_eval_proof pf) (om_set (pf_commitments pf) FIXED_VALUES_BATCH (cd_fixed_values cd)) tr;
  Some (r.1 && (foldl (fun acc aF => acc + aF.1 * aF.2) 0 (zip alphas (F_perm ++ F_lookup ++ [:: F_gates])) ==
    (vanishing_polynomial F rows).[y] * recombine rows y [seq value QUOTIENT_BATCH i y | i <- iota 0 chunks])).

Local Arguments draw : simpl never.
Lemma verifier_reads commitments pi sorted chunks s : all (fun i => i < table_width d)%N (cd_permuted_columns cd) ->
  (lookup -> sizes LOOKUP_BATCH = Some sorted) -> sizes QUOTIENT_BATCH = Some chunks ->
  exists2 columns,
    (forall v i, in_table d v -> global_index d v = Some i -> pv_rotation v \in nth [::] rots i ->
      find columns (pv_index v, pv_rotation v, pv_type v) = Some (phi (place_of d n v).1 (place_of d n v).2 (y * omega ^ pv_rotation v))) &
    placeholder_verify omega tr_start challenge absorb absorb_hash scheme_setup scheme_verify_eval cd (Proof commitments y (z, pi)) d cs s =
    verifier_on phi columns sorted chunks (Proof commitments y (z, pi)) s.
Proof.
move=> hcols hso hch; have [m hm hmv] := columns_read; exists m => //.
rewrite /placeholder_verify /verifier_on /=; case: (scheme_setup _ _) => data tr0.
case: (om_get commitments VARIABLE_VALUES_BATCH) => //= c.
rewrite !read_fixed /=; [|by move: (2 * n)%N; slia|by move: (2 * n)%N; slia].
have hfs : z_size z FIXED_VALUES_BATCH = Some (2 * n + 2 + (td_constant d + td_selector d))%N.
  by rewrite /z_size hz hfixed /= size_map size_iota.
rewrite hfs /= ifT; last by move: (2 * n)%N; slia.
have -> : ((2 * n + 2 + (td_constant d + td_selector d) - 2 - td_constant d - td_selector d) %/ 2 = n)%N.
  have -> : (2 * n + 2 + (td_constant d + td_selector d) - 2 - td_constant d - td_selector d = n * 2)%N by move: n; slia.
  by rewrite mulnK.
rewrite permutation_read //; set r1 := (if copy then _ else _); case: r1 => //= -[F_perm tr1].
rewrite hm /= (lookup_read _ _ _ _ _ _ hso); set r2 := (if lookup then _ else _); case: r2 => //= -[[F_lookup ev'] tr2].
set r3 := (if copy || lookup then _ else _); case: r3 => //= tr3; case: (gates_verify_eval _ _ _ _ _) => //= -[F_gates tr4].
case: (draw challenge 8 tr4) => alphas tr5; case: (om_get _ _) => //= c'; case: (challenge _) => ty tr6.
case: eqP => //= ->; case: (verifier_batch_sizes _ _ _) => //= s1; case: (verifier_evaluation_points _ _ _ _ _) => //= s2.
case: (scheme_verify_eval _ _ _ _ _) => //= -[b tr7] /=; case: b => //=.
rewrite hz hch /=; have -> : omapM (fun q : seq F => vget q 0) [seq [seq phi QUOTIENT_BATCH i x | x <- points y QUOTIENT_BATCH i] | i <- iota 0 chunks] =
  Some [seq phi QUOTIENT_BATCH i y | i <- iota 0 chunks]; last by [].
by elim: (iota 0 chunks) => //= i l ->.
Qed.
End Reads.
