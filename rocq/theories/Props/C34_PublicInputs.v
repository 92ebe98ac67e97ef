(** C34: public inputs are bound. *)
From Coq Require Import NArith.
From mathcomp Require Import all_ssreflect all_algebra.
From Verif.Model Require Import Base OrderedMap HashMap Domain Expression PlonkVariable PlonkTable CycleRepresentation PolysEvaluator
  PermutationArgument GatesArgument LookupArgument Quotient Placeholder.
From Verif.Spec Require Import PlaceholderSpec CircuitSpec.
From Verif.Proofs Require Import FieldTac NatTac DomainProofs PermProofs TableProofs KzgProofs PermArgProofs
  PlaceholderProofs PlaceholderState PlaceholderRun PlaceholderPoints PlaceholderReads PlaceholderHonest PlaceholderComplete.
From Verif.Props Require Import C27_LookupAgreement C29_GatesArgument C33_FinalIdentity.
Set Implicit Arguments.
Unset Strict Implicit.
Unset Printing Implicit Defensive.
Import GRing.Theory.
Local Open Scope ring_scope.

(** ** Specification *)
(** [p] is the polynomial of the column that holds [values] in its first rows and zeros below. *)
Definition column_of (F : fieldType) (omega : F) (rows : nat) (values : seq F) (p : {poly F}) : Prop :=
  (size p <= rows)%N /\ forall j, (j < rows)%N -> p.[omega ^+ j] = nth 0 values j.
(** The values of public input column [i] that are checked: all supplied, or as many as the circuit declares. *)
Definition checked_values (F : fieldType) (cs : constraint_system F) (i : nat) (values : seq F) : seq F :=
  if cs_public_input_sizes cs is [::] then values else take (nth 0%N (cs_public_input_sizes cs) i) values.

(** ** Proofs *)
Section Value.
Variables (F : fieldType) (omega : F) (rows : nat).
Hypothesis prim : rows.-primitive_root omega.
Add Field Ff_c34 : (@ffield_theory F).
(** (X^rows - 1) / (X - c) for [c] in the domain *)
Definition cofactor (c : F) : {poly F} := \sum_(k < rows) 'X^(rows.-1 - k) * c%:P ^+ k.
Lemma cofactorE c : c ^+ rows = 1 -> ('X - c%:P) * cofactor c = 'X^rows - 1.
Proof. by move=> hc; have -> : 'X^rows - 1 = 'X^rows - c%:P ^+ rows :> {poly F}; [rewrite -polyC_exp hc|rewrite subrXX]. Qed.
Lemma size_cofactor c : (size (cofactor c) <= rows)%N.
Proof.
apply: (leq_trans (size_sum _ _ _)); apply/bigmax_leqP => k _; rewrite -polyC_exp mulrC mul_polyC.
apply: (leq_trans (size_scale_leq _ _)); rewrite size_polyXn; have := ltn_ord k; move: (prim_order_gt0 prim); slia.
Qed.
Lemma cofactor_at c : (cofactor c).[c] = rows%:R * c ^+ rows.-1.
Proof.
rewrite horner_sum (eq_bigr (fun _ => c ^+ rows.-1)); first by rewrite sumr_const card_ord mulr_natl.
move=> k _; rewrite hornerM hornerXn -polyC_exp hornerC -exprD subnK //.
by have := ltn_ord k; move: (prim_order_gt0 prim); slia.
Qed.
Lemma dom1 j : (omega ^+ j) ^+ rows = 1.
Proof. by rewrite exprAC (prim_expr_order prim) expr1n. Qed.
Lemma cofactor_ne i j : (i < rows)%N -> (j < rows)%N -> i != j -> (cofactor (omega ^+ j)).[omega ^+ i] = 0.
Proof.
move=> hi hj ne; have /(congr1 (fun p => p.[omega ^+ i])) := cofactorE (dom1 j).
rewrite hornerM hornerXsubC !hornerE hornerXn dom1 subrr => /eqP; rewrite mulf_eq0 subr_eq0.
by rewrite (eq_prim_root_expr prim) !modn_small // (negPf ne) => /eqP.
Qed.
Lemma determined (p q : {poly F}) : (size p <= rows)%N -> (size q <= rows)%N ->
  (forall j, (j < rows)%N -> p.[omega ^+ j] = q.[omega ^+ j]) -> p = q.
Proof.
move=> hp hq h; apply/eqP; rewrite -subr_eq0; apply/eqP; apply: (@roots_geq_poly_eq0 _ _ (basic_domain omega rows)).
- apply/allP => x /mem_domainP[j hj ->]; by rewrite /root hornerD hornerN h // subrr.
- exact: uniq_domain.
by rewrite size_domain (leq_trans (size_add _ _)) // size_opp geq_max hp.
Qed.
Lemma rows_neq0 : rows%:R != 0 :> F.
Proof.
apply/eqP => h0; have e0 : cofactor (omega ^+ 0) = 0.
  apply: determined; rewrite ?size_poly0 ?size_cofactor // => j hj; rewrite horner0.
  by case: j hj => [|j] hj; [rewrite cofactor_at h0 mul0r|rewrite cofactor_ne // (leq_ltn_trans _ hj)].
have := cofactorE (dom1 0); rewrite e0 mulr0 => /esym/eqP; rewrite -size_poly_eq0 size_Xn_sub_1 ?(prim_order_gt0 prim) //.
Qed.

Notation state y := (foldl (fun st x => (st.1 + (x * st.2) * (y - st.2)^-1, st.2 * omega))).
Lemma state_sum y values a : (state y (a, 1) values) =
  (a + \sum_(j < size values) nth 0 values j * omega ^+ j * (y - omega ^+ j)^-1, omega ^+ size values).
Proof.
elim/last_ind: values => [|vs v ih]; first by rewrite big_ord0 addr0.
rewrite -cats1 foldl_cat ih /= size_cat /= addn1 exprSr -addrA big_ord_recr /=; congr (_ + _, _).
rewrite nth_cat ltnn subnn /=; congr (_ + _); apply: eq_bigr => j _; by rewrite nth_cat ltn_ord.
Qed.
Lemma valueE y values p : y ^+ rows != 1 -> (size values <= rows)%N -> column_of omega rows values p -> public_input_value omega rows y values = p.[y].
Proof.
move=> hy hs [hp hv].
have -> : p = \sum_(j < size values) (nth 0 values j * omega ^+ j / rows%:R) *: cofactor (omega ^+ j).
  apply: determined => //.
    apply: (leq_trans (size_sum _ _ _)); apply/bigmax_leqP => k _; exact: leq_trans (size_scale_leq _ _) (size_cofactor _).
  move=> i hi; rewrite hv // horner_sum; case: (ltnP i (size values)) => his.
    rewrite (bigD1 (Ordinal his)) //= big1 ?addr0 => [|k hk].
      rewrite hornerZ cofactor_at mulrA divfK ?rows_neq0 // -mulrA -exprS prednK ?(prim_order_gt0 prim) //.
      by rewrite dom1 mulr1.
    rewrite hornerZ cofactor_ne ?mulr0 //; first exact: leq_trans (ltn_ord k) hs.
    by apply: contra hk => /eqP e; apply/eqP/val_inj.
  rewrite nth_default // big1 // => k _; rewrite hornerZ cofactor_ne ?mulr0 //; first exact: leq_trans (ltn_ord k) hs.
  by rewrite neq_ltn (leq_trans (ltn_ord k) his) orbT.
rewrite /public_input_value state_sum /= add0r horner_sum mulr_suml; apply: eq_bigr => j _.
have hd : y - omega ^+ j != 0.
  by apply: contra hy; rewrite subr_eq0 => /eqP->; rewrite dom1.
have e : y ^+ rows - 1 = (y - omega ^+ j) * (cofactor (omega ^+ j)).[y].
  have /(congr1 (fun q => q.[y])) := cofactorE (dom1 j); by rewrite hornerM hornerXsubC hornerD hornerN hornerXn horner_1.
rewrite hornerZ e; move: hd rows_neq0; move: (y - _) rows%:R (nth _ _ _ * _) (cofactor _).[_] => d r v q hd hr.
by ffield F.
Qed.
End Value.

(** ** Theorems *)
(** The value computed for a column is the value at the challenge of the polynomial of the column. *)
Theorem C34_value (F : fieldType) (omega : F) (rows : nat) (y : F) (values : seq F) (p : {poly F}) : rows.-primitive_root omega ->
  y ^+ rows != 1 -> (size values <= rows)%N -> column_of omega rows values p -> public_input_value omega rows y values = p.[y].
Proof. by move=> prim; exact: valueE. Qed.

(** A committed column of which as many values agree with the supplied ones as there are rows, is the supplied column:
    every other column passes the check at fewer than [rows] challenges. *)
Theorem C34_binds (F : fieldType) (omega : F) (rows : nat) (values ys : seq F) (P : {poly F}) : rows.-primitive_root omega ->
  (size values <= rows)%N -> (size P <= rows)%N -> uniq ys -> (rows <= size ys)%N ->
  (forall y, y \in ys -> y ^+ rows != 1 /\ public_input_value omega rows y values = P.[y]) -> column_of omega rows values P.
Proof.
move=> prim hs hP hu hys h; pose p := dfs_of_values omega rows values.
have hp : column_of omega rows values p by split=> [|j hj]; [exact: size_dfs|exact: dfs_at].
suff -> : P = p by [].
apply/eqP; rewrite -subr_eq0; apply/eqP; apply: (@roots_geq_poly_eq0 _ _ ys) => //.
  by apply/allP => y hy; have [h1 h2] := h _ hy; rewrite /root hornerD hornerN -h2 (valueE prim h1 hs hp) subrr.
by apply: leq_trans hys; rewrite (leq_trans (size_add _ _)) // size_opp geq_max hP size_dfs.
Qed.

Section Verify.
Variables (F : fieldType) (omega : F).
Variables (T : Type) (tr_start : T) (challenge : T -> F * T) (C H : Type) (absorb : T -> C -> T) (absorb_hash : T -> H -> T).
Variables (D X P : Type) (scheme_setup : T -> D -> X * T)
  (scheme_verify_eval : X -> scheme F C -> eval_storage F * P -> omapT C -> T -> option (bool * T)).
Notation verify := (placeholder_verify omega tr_start challenge absorb absorb_hash scheme_setup scheme_verify_eval).
Notation verify_public := (placeholder_verify_public omega tr_start challenge absorb absorb_hash scheme_setup scheme_verify_eval).
Variables (cd : common_data C H D) (d : table_description) (cs : constraint_system F) (s : scheme F C).
Notation rows := (td_rows d).
Hypothesis prim : rows.-primitive_root omega.

Lemma checkE z y i values : check_public_input omega cs d z y i values =
  if (size (cs_public_input_sizes cs) != 0%N) && (size (cs_public_input_sizes cs) <= i)%N then None else
  olet x <- z_get z VARIABLE_VALUES_BATCH (td_witness d + i) 0; Some (public_input_value omega rows y (checked_values cs i values) == x).
Proof.
rewrite /check_public_input /checked_values; case e : (cs_public_input_sizes cs) => [|n0 ns] /=; first by rewrite take_size.
rewrite -[match i with 0%N => _ | _ => _ end]/(vget (n0 :: ns) i); case: (ltnP i (size (n0 :: ns))) => hi; last by rewrite vget_None.
rewrite (vget_nth 0%N) //; move: (nth 0%N (n0 :: ns) i) => m /=; case: (z_get _ _ _ _) => //= x; congr (Some (public_input_value _ _ _ _ == _)).
by case: (leqP (size values) m) => h //; rewrite take_size take_oversize.
Qed.
Lemma checks z y (l : seq (seq F)) a : ofold (fun (ok : bool) (iv : nat * seq F) => if ok then check_public_input omega cs d z y iv.1 iv.2 else Some false)
    true (zip (iota a (size l)) l) = Some true <->
  forall i, (i < size l)%N -> check_public_input omega cs d z y (a + i) (nth [::] l i) = Some true.
Proof.
have hf zs : ofold (fun (ok : bool) (iv : nat * seq F) => if ok then check_public_input omega cs d z y iv.1 iv.2 else Some false) false zs = Some false.
  by elim: zs.
elim: l a => [|v l ih] a //=; split.
  case e : (check_public_input _ _ _ _ _ _ _) => [[]|] //=; last by rewrite hf.
  by move/ih => h [|i] hi /=; rewrite ?addn0 ?addnS -?addSn //; apply: h.
by move=> h; have := h 0%N isT; rewrite /= addn0 => -> /=; apply/ih => i hi; rewrite addSnnS; exact: (h i.+1).
Qed.

(** An accepted proof opens every supplied column, at its first point, to the value at the challenge of the polynomial made of
    the supplied values. *)
Theorem C34_bound pf public_input : verify_public cd pf d cs s public_input = Some true ->
  pf_challenge pf ^+ rows != 1 ->
  verify cd pf d cs s = Some true /\
  forall i p, (i < size public_input)%N -> (size (checked_values cs i (nth [::] public_input i)) <= rows)%N ->
    column_of omega rows (checked_values cs i (nth [::] public_input i)) p ->
    z_get (pf_eval_proof pf).1 VARIABLE_VALUES_BATCH (td_witness d + i) 0 = Some p.[pf_challenge pf].
Proof.
rewrite /placeholder_verify_public; case: ifP => // _; case e : (ofold _ _ _) => [[]|] //= hv hy; split=> // i p hi hsz hp.
move/checks: e => /(_ i hi); rewrite add0n checkE; case: ifP => // _; case: (z_get _ _ _ _) => //= x [] /eqP <-.
by rewrite (valueE prim hy hsz hp).
Qed.

(** Conversely, it answers as the verifier without public inputs if all these columns are opened to the values of the
    supplied inputs. *)
Theorem C34_accepts pf public_input : pf_challenge pf ^+ rows != 1 ->
  (size (cs_public_input_sizes cs) = 0%N \/ size (cs_public_input_sizes cs) = td_public_input d) -> (size public_input <= td_public_input d)%N ->
  (forall i, (i < size public_input)%N -> (size (checked_values cs i (nth [::] public_input i)) <= rows)%N /\
     exists2 p, column_of omega rows (checked_values cs i (nth [::] public_input i)) p &
       z_get (pf_eval_proof pf).1 VARIABLE_VALUES_BATCH (td_witness d + i) 0 = Some p.[pf_challenge pf]) ->
  verify_public cd pf d cs s public_input = verify cd pf d cs s.
Proof.
move=> hy hsz hpi h; rewrite /placeholder_verify_public.
have -> : (size (cs_public_input_sizes cs) != 0%N) && (size (cs_public_input_sizes cs) != td_public_input d) = false.
  by case: hsz => ->; rewrite eqxx ?andbF.
have -> // : ofold (fun (ok : bool) (iv : nat * seq F) => if ok then check_public_input omega cs d (pf_eval_proof pf).1 (pf_challenge pf) iv.1 iv.2 else Some false)
    true (zip (iota 0 (size public_input)) public_input) = Some true.
apply/checks => i hi; rewrite add0n checkE; have [h1 [p hp ->]] := h i hi.
have -> : (size (cs_public_input_sizes cs) != 0%N) && (size (cs_public_input_sizes cs) <= i)%N = false.
  by case: hsz => ->; rewrite ?eqxx // (leqNgt _ i) (leq_trans hi hpi) andbF.
by rewrite /= (valueE prim hy h1 hp) eqxx.
Qed.
Lemma rejects pf values : (size (cs_public_input_sizes cs) != 0%N) && (size (cs_public_input_sizes cs) != td_public_input d) = false ->
  check_public_input omega cs d (pf_eval_proof pf).1 (pf_challenge pf) 0 values = Some false -> verify_public cd pf d cs s [:: values] = Some false.
Proof. by rewrite /placeholder_verify_public => -> /= ->. Qed.
(** Only the supplied columns are compared. *)
Theorem C34_nothing_supplied pf : cs_public_input_sizes cs = [::] -> verify_public cd pf d cs s [::] = verify cd pf d cs s.
Proof. by rewrite /placeholder_verify_public => ->. Qed.
End Verify.

(** An honest proof is accepted together with its public inputs, if no rotation of a public input column is negative. *)
Section Honest.
Variables (F : fieldType) (omega : F).
Variables (T : Type) (tr_start : T) (challenge : T -> F * T) (C H : Type) (absorb : T -> C -> T) (absorb_hash : T -> H -> T).
Variable iteration : seq plonk_variable -> seq plonk_variable.
Variables (committable : seq {poly F} -> bool) (commit_polys : seq {poly F} -> C).
Variables (D X P : Type) (scheme_preprocess : scheme F C -> T -> D) (scheme_setup : T -> D -> X * T)
  (scheme_proof_eval : X -> scheme F C -> T -> option ((eval_storage F * P) * T))
  (scheme_verify_eval : X -> scheme F C -> eval_storage F * P -> omapT C -> T -> option (bool * T)).
Notation preprocess := (placeholder_preprocess omega tr_start absorb absorb_hash iteration committable commit_polys scheme_preprocess).
Notation commit := (placeholder_commit omega tr_start challenge absorb absorb_hash iteration committable commit_polys scheme_setup).
Notation prove := (placeholder_prove omega tr_start challenge absorb absorb_hash iteration committable commit_polys scheme_setup scheme_proof_eval).
Notation verify := (placeholder_verify omega tr_start challenge absorb absorb_hash scheme_setup scheme_verify_eval).
Notation verify_public := (placeholder_verify_public omega tr_start challenge absorb absorb_hash scheme_setup scheme_verify_eval).
Hypothesis iterationP : forall l, perm_eq (iteration l) l.
Variables (cs : constraint_system F) (public : plonk_public_table F) (d : table_description) (chunks : nat) (delta : F) (hash : H)
  (pp : preprocessed_data F C H D) (s : scheme F C) (witnesses : seq {poly F}).
Hypotheses (prim : (td_rows d).-primitive_root omega)
  (hfit : fits_description d public witnesses) (hpre : preprocess cs public d (fresh F C) chunks delta hash = Some (pp, s)).
Notation cd := (pp_common pp).
Notation copy := (size (cs_copy_constraints cs) != 0%N).
Notation lookup := (size (cs_lookup_gates cs) != 0%N).
Notation n := (size (cd_permuted_columns cd)).
Notation rows := (td_rows d).

Theorem C34_complete st pf public_input : commit pp witnesses d cs s = Some st ->
  (forall sp, prover_evaluation_points omega pp cs d (ps_challenge st) (ps_scheme st) = Some sp ->
     opens commit_polys scheme_proof_eval scheme_verify_eval (ps_data st) sp (ps_transcript st)) ->
  prove pp witnesses d cs s = Some pf -> pf_challenge pf ^+ rows != 1 ->
  (size (cs_public_input_sizes cs) = 0%N \/ size (cs_public_input_sizes cs) = td_public_input d) ->
  (size public_input <= td_public_input d)%N ->
  (forall i, (i < size public_input)%N -> (size (checked_values cs i (nth [::] public_input i)) <= rows)%N /\
     forall j, (j < rows)%N -> nth 0 (checked_values cs i (nth [::] public_input i)) j = nth 0 (nth [::] (pu_public_inputs public) i) j) ->
  (forall i r, (i < td_public_input d)%N -> r \in nth [::] (cd_columns_rotations cd) (td_witness d + i) -> (0 <= r)%R) ->
  verify_public cd pf d cs s public_input = verify cd pf d cs s.
Proof.
move=> hst hop hpf hy hsz hpi hval hrot; apply: C34_accepts => // i hi.
have [perm [_ [_ [hpub _ _]] [_ [_ _ hrots _]] _ hs]] := preprocessP hpre.
have [h1 h2] := hval i hi; split=> //.
have hc := commitP omega tr_start challenge absorb absorb_hash iteration committable scheme_setup witnesses d cs hs.
case er : (prover_run omega tr_start challenge absorb absorb_hash iteration committable commit_polys scheme_setup pp witnesses d cs) hc => [r|]; last by rewrite hst.
rewrite hst => -[st' [<-]] [[ed et] ey hsort hcm hh].
have hpolys k : om_get (ev_polys (sc_ev (ps_scheme st))) k = run_batches pp witnesses cs r k by exact: (h_polys hh).
have [p1 p2 p3 p4 p5] := preprocessed_sizes hfit hpre.
have [|sp hsp [_ _ epol hso hpt]] := register iterationP hfit hpre (r_y r) er (holds_sized hh); first by move=> k /=; case: (run_batches _ _ _ _ k).
have hsp' : prover_evaluation_points omega pp cs d (ps_challenge st) (ps_scheme st) = Some sp.
  by rewrite /prover_evaluation_points p1 p2 p5 addnn -mul2n ey.
have [z [pi [tr1 [hpe hz hve]]]] := hop _ hsp'.
have {hpf} epf : pf = Proof (ps_commitments st) (ps_challenge st) (z, pi).
  by move: hpf; rewrite /placeholder_prove hst /= /placeholder_open hsp' /= hpe => -[<-].
have hi' : (i < td_public_input d)%N := leq_trans hi hpi.
have hiv : (td_witness d + i < size (variable_batch pp witnesses))%N by rewrite (size_variable_batch hfit hpre) ltn_add2l.
have hzi : om_get z VARIABLE_VALUES_BATCH = Some [seq [seq (nth 0 (variable_batch pp witnesses) i).[x] |
    x <- column_points omega (r_y r) (cd_columns_rotations cd) i] | i <- iota 0 (size (variable_batch pp witnesses))].
  rewrite hz epol hpolys hpt /run_batches /=; congr Some; apply/eq_in_map => k; rewrite mem_iota /= add0n => hk.
  by rewrite (nth_map 0%N) ?size_iota // nth_iota.
have hw : size witnesses = td_witness d by case/and4P: hfit => /eqP.
have hnth : nth 0 (variable_batch pp witnesses) (td_witness d + i) = nth 0 (pp_public_inputs pp) i.
  by rewrite /variable_batch nth_cat hw ltnNge leq_addr /= addKn.
have [hsr hsort' _ _] := columns_rotationsP hrots.
have [hr1 hr2] : sorted <%R (nth [::] (cd_columns_rotations cd) (td_witness d + i)) /\ 0 \in nth [::] (cd_columns_rotations cd) (td_witness d + i).
  by apply: hsort'; rewrite /table_width; move: hi'; slia.
have [rs hrs] : exists rs, nth [::] (cd_columns_rotations cd) (td_witness d + i) = 0 :: rs.
  move: hr1 hr2 (hrot i ^~ hi'); case: (nth _ _ _) => [|x rs] // hs1; rewrite inE => /orP[/eqP <- _|h0 hge]; first by exists rs.
  have hx : (x < 0)%R by move: hs1 => /=; rewrite path_sortedE; [move=> /andP[/allP h _]; exact: h|exact: Order.POrderTheory.lt_trans].
  by have := hge x (mem_head _ _); rewrite Order.TotalTheory.leNgt hx.
rewrite epf /= ey; exists (nth 0 (pp_public_inputs pp) i).
  split; last move=> j hj; have hi2 : (i < size (pu_public_inputs public))%N by case/and4P: hfit => _ /eqP->.
    have := omapM_nth [::] 0 hpub hi2; rewrite /column_polynomial_dfs; by case: ifP => // _ [<-]; exact: size_dfs.
  have := omapM_nth [::] 0 hpub hi2; rewrite /column_polynomial_dfs; by case: ifP => // _ [<-]; rewrite dfs_at // h2.
rewrite /z_get hzi /= (vget_nth [::]) ?size_map ?size_iota //= (nth_map 0%N) ?size_iota // nth_iota // add0n hnth.
by rewrite /column_points hrs /= expr0z mulr1.
Qed.
End Honest.

Section Drawn.
Variables (F : fieldType) (omega : F) (T : Type) (tr_start : T) (challenge : T -> F * T) (C H : Type) (absorb : T -> C -> T) (absorb_hash : T -> H -> T).
Variable iteration : seq plonk_variable -> seq plonk_variable.
Variables (committable : seq {poly F} -> bool) (commit_polys : seq {poly F} -> C) (D X : Type) (scheme_setup : T -> D -> X * T).
Lemma drawn pp ws d cs r : prover_run omega tr_start challenge absorb absorb_hash iteration committable commit_polys scheme_setup pp ws d cs = Some r ->
  exists tr, r_y r = (challenge tr).1.
Proof.
rewrite /prover_run; case/ogP=> _ /olP[[[Fp bp] t2] _] /olP[[[[Fl so] bl] t3] _] /ogP[_] /olP[[Fg t4] _] /olP[[ch t5] _] /ogP[_] [<-] /=.
by eexists.
Qed.
End Drawn.

(** ** A circuit with a public input column
    Four rows over F_17, three of them usable: the witness is the public input. The commitment scheme of the example has no
    commitments; its proof are the values. *)
Section Witness.
Local Arguments rotated_row : simpl never.
Local Arguments rows_amount : simpl never.
Notation F := [fieldType of 'F_17].
Let omega : F := 4%:R.
Definition public_gate : plonk_gate F :=
  PlonkGate [:: Bin SUB (expr_var _ (PlonkVariable 0 0 true CWitness)) (expr_var _ (PlonkVariable 0 0 true CPublicInput))] 0.
Definition public_cs : constraint_system F := ConstraintSystem [:: public_gate] [::] [::] [::] [:: 3%N].
Definition public_d := TableDescription 1 1 0 1 3 4.
Definition public_table : plonk_table F :=
  PlonkTable (PrivateTable [:: [:: 5; 6; 7; 0]]) (PublicTable [:: [:: 5; 6; 7; 0]] [::] [:: [:: 1; 1; 1; 0]]).
Notation d := public_d.
Notation cs := public_cs.
Notation t := public_table.
Let iteration : seq plonk_variable -> seq plonk_variable := id.
Let challenge : unit -> F * unit := fun tt => (2%:R, tt).
Let no_commitment : seq {poly F} -> unit := fun _ => tt.
Definition all_values (ev : evaluator F) : eval_storage F :=
  [seq (kv.1, [seq [seq (nth 0 kv.2 i).[x] | x <- nth [::] (odflt [::] (om_get (ev_points ev) kv.1)) i] | i <- iota 0 (size kv.2)]) | kv <- ev_polys ev].
Let proof_eval : unit -> scheme F unit -> unit -> option ((eval_storage F * unit) * unit) := fun _ s _ => Some ((all_values (sc_ev s), tt), tt).
Let verify_eval : unit -> scheme F unit -> eval_storage F * unit -> omapT unit -> unit -> option (bool * unit) := fun _ _ _ _ _ => Some (true, tt).
Lemma om_get_values ev k : om_get (all_values ev) k = omap (fun ps : seq {poly F} =>
  [seq [seq (nth 0 ps i).[x] | x <- nth [::] (odflt [::] (om_get (ev_points ev) k)) i] | i <- iota 0 (size ps)]) (om_get (ev_polys ev) k).
Proof.
rewrite /all_values; move: (ev_points ev) => pts; elim: (ev_polys ev) => [|[k' ps] m ih] //=.
by case: eqP => [->|].
Qed.
Lemma public_opens s : opens no_commitment proof_eval verify_eval tt s tt.
Proof. exists (all_values (sc_ev s)), tt, tt; split=> // [k|sv cm _ _ _]; [exact: om_get_values|by exists tt]. Qed.
Lemma public_shape : table_shape d t.
Proof. by vm_decide. Qed.
Lemma public_ok : circuit_ok cs d 0.
Proof.
split.
- by split=> // g v [<-|//]; rewrite !inE => /or3P[] /eqP->.
- by rewrite /=; exact: dvd_64.
- by split=> [g c [<-|//] [<-|//]|]; last by split.
- by [].
by [].
Qed.
Lemma public_satisfies : satisfies cs d t.
Proof.
split; [|by move=> x y [[|i] [cc []]]|by []].
move=> g c j [<-|//] [<-|//] hj; have {}hj : (j < 3)%N := hj.
have hr r : (r <= 1)%N -> rotated_row 4 j r%:Z = ((4 + j + r) %% 4)%N.
  move=> hr; apply: rotated_row_pos => //; apply: (@leq_trans (2 ^ 4)%N); last by rewrite leq_exp2l.
  by move: hj hr; move: (2 ^ 4)%N (erefl : 16%N = 2 ^ 4)%N => ? <-; slia.
have e4 : rows_amount t = 4%N by [].
rewrite /row_evaluate e4; move: (hr 0%N isT) => {hr}; move: (rotated_row 4 j) => f h0.
rewrite /evaluate_opt /= /eval_term /= !h0 {f h0}.
case: j hj => [|[|[|j]]] hj //; do 2 eexists; (split; [reflexivity|reflexivity|]); right; vm_decide.
Qed.
Lemma public_prim : (td_rows d).-primitive_root omega.
Proof.
apply/andP; split=> //; apply/forallP => -[i hi]; rewrite unity_rootE /=.
by do 4 (case: i hi => [|i] hi; first vm_decide).
Qed.
Let nothing : unit -> unit -> unit := fun _ _ => tt.
Let no_data : scheme F unit -> unit -> unit := fun _ _ => tt.
Let setup : unit -> unit -> unit * unit := fun tr _ => (tt, tr).
Notation preprocess := (placeholder_preprocess omega tt nothing nothing iteration xpredT no_commitment no_data).
Notation commit := (placeholder_commit omega tt challenge nothing nothing iteration xpredT no_commitment setup).
Notation prove := (placeholder_prove omega tt challenge nothing nothing iteration xpredT no_commitment setup proof_eval).
Notation verify_public := (placeholder_verify_public omega tt challenge nothing nothing setup verify_eval).
Example C34_witness : exists pp s ws pf,
  [/\ prove pp ws d cs s = Some pf, verify_public (pp_common pp) pf d cs s [:: [:: 5; 6; 7]] = Some true &
      verify_public (pp_common pp) pf d cs s [:: [:: 5; 6; 8]] = Some false].
Proof.
have hi l : perm_eq (iteration l) l by exact: perm_refl.
have [||pp [s hpre]] := @C33_preprocess F omega unit tt unit unit nothing nothing iteration xpredT no_commitment unit no_data cs t d 0 1 tt hi (fun _ _ => isT) public_shape public_ok.
- by vm_compute.
- by left.
have [ws hw] : exists ws, omapM (column_polynomial_dfs omega (td_rows d)) (pr_witnesses (pt_private t)) = Some ws.
  by eexists; rewrite /=; reflexivity.
have [sorted h] := C33_complete (challenge := challenge) (scheme_setup := setup) proof_eval verify_eval hi (fun _ _ => isT) public_prim public_shape public_ok hw hpre public_satisfies
  (fun h => False_ind _ (notF h)) (fun h => False_ind _ (notF h)) (fun h => False_ind _ (notF h)).
have [st hst {}h] := h (fun h => False_ind _ (notF h)).
have hop sp : opens no_commitment proof_eval verify_eval (ps_data st) sp (ps_transcript st).
  case: (ps_data st) (ps_transcript st) => [] []; exact: public_opens.
have [pf hp hv] := h (fun sp _ => hop sp).
have hy : pf_challenge pf = 2.
  have [perm [_ _ _ _ hs]] := preprocessP hpre.
  have hc := commitP omega tt challenge nothing nothing iteration xpredT setup ws d cs hs.
  case er : prover_run hc => [r|]; last by rewrite hst.
  rewrite hst => -[st' [<-]] [_ ey _ _ _].
  move: hp; rewrite /placeholder_prove hst /= /placeholder_open; case/olP=> sp _ /olP[res _] [<-] /=.
  by rewrite ey; have [tr ->] := drawn er.
have hy' : pf_challenge pf ^+ td_rows d != 1 by rewrite hy; vm_decide.
have htrue : verify_public (pp_common pp) pf d cs s [:: [:: 5; 6; 7]] = Some true.
  rewrite -hv; apply: (C34_complete (pf := pf) hi public_prim (table_fits public_shape hw) hpre hst (fun sp _ => hop sp) hp hy').
  - by right.
  - exact: isT.
  - case=> [|i] hi1; last by [].
    split; [exact: isT|move=> j hj].
    case: j hj => [|[|[|[|j]]]] hj; [vm_decide..|exact: (False_ind _ (notF hj))].
  have [perm [_ _ [_ [_ _ hrots _]] _ _]] := preprocessP hpre; move: hrots => -[<-].
  case=> [|i] r hi1; last by [].
  by rewrite inE => /eqP->.
exists pp, s, ws, pf; split; [exact: hp|exact: htrue|].
pose p := dfs_of_values omega 4 [:: 5; 6; 7].
have hcol : column_of omega 4 [:: 5; 6; 7] p by split=> [|j hj]; [exact: size_dfs|exact: (dfs_at public_prim)].
have [_ /(_ 0%N p isT isT hcol) hz] := C34_bound public_prim htrue hy'.
have hsz : (size ([:: 5; 6; 7]%R : seq F) <= td_rows d)%N by exact: isT.
have hval := valueE public_prim hy' hsz hcol; rewrite -hval hy in hz.
apply: rejects; first by [].
rewrite checkE hy; have -> : (size (cs_public_input_sizes cs) != 0%N) && (size (cs_public_input_sizes cs) <= 0)%N = false by [].
rewrite hz; have /negPf h8 : public_input_value omega 4 2 (checked_values cs 0 [:: 5; 6; 8]) != public_input_value omega 4 2 [:: 5; 6; 7] by vm_decide.
by rewrite /obnd; congr Some.
Qed.

(** The condition on the rotations is needed: the value compared is the one at the first point of the column, and the
    rotations are in increasing order. A circuit that reads the public input of the previous row: the values of the true
    column, at the points that the verifier registers for it, fail the check. *)
Definition previous_gate : plonk_gate F :=
  PlonkGate [:: Bin SUB (expr_var _ (PlonkVariable 0 0 true CWitness)) (expr_var _ (PlonkVariable 0 (-1) true CPublicInput))] 0.
Definition previous_cs : constraint_system F := ConstraintSystem [:: previous_gate] [::] [::] [::] [::].
Theorem C34_negative_rotation_refuted : exists rots (y : F) (p : {poly F}) (z : eval_storage F),
  [/\ columns_rotations previous_cs d = Some rots, column_of omega 4 [:: 5; 6; 7] p, y ^+ 4 != 1,
      z = [:: (VARIABLE_VALUES_BATCH, [:: [:: 1]; [seq p.[x] | x <- column_points omega y rots 1]])] &
      check_public_input omega previous_cs d z y 0 [:: 5; 6; 7] = Some false].
Proof.
pose p := dfs_of_values omega 4 [:: 5; 6; 7]; pose y : F := 2.
have hcol : column_of omega 4 [:: 5; 6; 7] p by split=> [|j hj]; [exact: size_dfs|exact: (dfs_at public_prim)].
have hy : y ^+ 4 != 1 by vm_decide.
have hsz : (size ([:: 5; 6; 7]%R : seq F) <= td_rows d)%N by exact: isT.
exists [:: [:: 0]; [:: -1; 0]; [:: 0]], y, p; eexists; split; [by []|exact: hcol|exact: hy|reflexivity|].
rewrite checkE; have -> : (size (cs_public_input_sizes previous_cs) != 0%N) && (size (cs_public_input_sizes previous_cs) <= 0)%N = false by [].
rewrite -[z_get _ _ _ _]/(Some p.[y * omega ^ (-1)%Z]).
have hy' : (y * omega ^ (-1)%Z) ^+ 4 != 1 by vm_decide.
rewrite -(valueE public_prim hy' hsz hcol).
have /negPf h : public_input_value omega 4 y [:: 5; 6; 7] != public_input_value omega 4 (y * omega ^ (-1)%Z) [:: 5; 6; 7] by vm_decide.
by rewrite /obnd; congr Some.
Qed.
End Witness.

Print Assumptions C34_value.
Print Assumptions C34_binds.
Print Assumptions C34_bound.
Print Assumptions C34_accepts.
Print Assumptions C34_nothing_supplied.
Print Assumptions C34_complete.
Print Assumptions C34_negative_rotation_refuted.
