(** Proofs about the Placeholder verifier on the values of the prover's polynomials. *)
From Coq Require Import NArith.
From mathcomp Require Import all_ssreflect all_algebra.
From Verif.Model Require Import Base OrderedMap HashMap Domain Expression PlonkVariable PlonkTable CycleRepresentation PolysEvaluator
  PermutationArgument GatesArgument LookupArgument Quotient Placeholder.
From Verif.Spec Require Import PlaceholderSpec CircuitSpec.
From Verif.Proofs Require Import NatTac DomainProofs PermProofs TableProofs KzgProofs EvaluatorProofs MapProofs
  QuotientProofs PermArgProofs PlaceholderProofs PlaceholderState PlaceholderRun PlaceholderPoints PlaceholderReads.
From Verif.Props Require Import C24_PermutationAgreement C27_LookupAgreement C29_GatesArgument C30_QuotientSplitting.
Set Implicit Arguments.
Unset Strict Implicit.
Unset Printing Implicit Defensive.
Import GRing.Theory.
Local Open Scope ring_scope.

Section Honest.
Variables (F : fieldType) (omega : F).
Variables (T : Type) (tr_start : T) (challenge : T -> F * T) (C H : Type) (absorb : T -> C -> T) (absorb_hash : T -> H -> T).
Variable iteration : seq plonk_variable -> seq plonk_variable.
Variables (committable : seq {poly F} -> bool) (commit_polys : seq {poly F} -> C).
Variables (D X P : Type) (scheme_preprocess : scheme F C -> T -> D) (scheme_setup : T -> D -> X * T)
  (scheme_verify_eval : X -> scheme F C -> eval_storage F * P -> omapT C -> T -> option (bool * T)).
Notation preprocess := (placeholder_preprocess omega tr_start absorb absorb_hash iteration committable commit_polys scheme_preprocess).
Hypothesis iterationP : forall l, perm_eq (iteration l) l.

Lemma values_of (a b c : seq {poly F}) (x : F) :
  [seq (nth 0 (a ++ b ++ c) i).[x] | i <- iota (size a) (size b)] = [seq p.[x] | p <- b].
Proof.
rewrite -[size a]addn0 iotaDl -map_comp -[in RHS](mkseq_nth 0 b) -map_comp; apply/eq_in_map => i; rewrite mem_iota add0n => /andP[_ hi] /=.
by rewrite nth_cat ltnNge leq_addr /= addKn nth_cat hi.
Qed.

Section Main.
Variables (cs : constraint_system F) (public : plonk_public_table F) (d : table_description) (chunks : nat) (delta : F) (hash : H)
  (pp : preprocessed_data F C H D) (s : scheme F C) (witnesses : seq {poly F}).
Hypotheses (hfit : fits_description d public witnesses) (hpre : preprocess cs public d (fresh F C) chunks delta hash = Some (pp, s)).
Notation cd := (pp_common pp).
Notation pt := (prover_table pp witnesses).
Notation copy := (size (cs_copy_constraints cs) != 0%N).
Notation lookup := (size (cs_lookup_gates cs) != 0%N).
Notation n := (size (cd_permuted_columns cd)).
Notation points y := (opening_points omega y copy lookup d n (cd_permutation_parts cd) (cd_columns_rotations cd)).
Notation run := (prover_run omega tr_start challenge absorb absorb_hash iteration committable commit_polys scheme_setup pp witnesses d cs).
Notation batches := (run_batches pp witnesses cs).
Variable (r : PlaceholderRun.run F T X).
Hypothesis hr : run = Some r.
Definition value (k i : nat) (x : F) : F := (nth 0 (odflt [::] (batches r k)) i).[x].

Lemma perm_batch_size : copy || lookup -> omap size (batches r PERMUTATION_BATCH) =
  Some (cd_permutation_parts cd + (if lookup then cd_lookup_parts cd else 0))%N.
Proof.
move=> hcl; rewrite /batches /= hcl /= size_cat; have [-> _] := run_permutation_size iterationP hpre hr; congr (Some (_ + _)%N).
move: hr; case/ogP=> _ /olP[p _] /olP[[[[Fl so] bl] tr3] hl] /ogP[_] /olP[g _] /olP[q _] /ogP[_] [<-] /=.
have [perm [_ _ [[_ hch _ _ _] [_ -> _ _]] _ _]] := preprocessP hpre.
move: hl; rewrite /run_lookup; case: ifP => _; last by case=> _ _ <- _.
case/olP=> -[res tr'] hres /ogP[_] [_ _ <- _] /=; rewrite (size_lr_parts hres) /= hch subn1 prednK //; exact: size_lookup_parts.
Qed.
Lemma lookup_parts_pos : lookup -> (0 < cd_lookup_parts cd)%N.
Proof. by have [perm [_ _ [_ [_ -> _ _]] _ _]] := preprocessP hpre => _; apply: size_lookup_parts. Qed.
Lemma table_columnsE : table_columns pt = variable_batch pp witnesses ++ (pp_constants pp ++ pp_selectors pp).
Proof. by rewrite /table_columns /variable_batch /= catA. Qed.
Lemma size_table_columns : size (table_columns pt) = table_width d.
Proof.
rewrite table_columnsE size_cat (size_variable_batch hfit hpre) size_cat; have [_ _ _ -> ->] := preprocessed_sizes hfit hpre.
by rewrite /table_width !addnA.
Qed.
Lemma column_value i c x : vget (table_columns pt) i = Some c -> value (place_of_column d n i).1 (place_of_column d n i).2 x = c.[x].
Proof.
move=> hc; have hi : (i < size (table_columns pt))%N by rewrite ltnNge; apply/negP => /(vget_None)e; rewrite e in hc.
move: hc; rewrite (vget_nth 0) // => -[<-]; rewrite table_columnsE nth_cat (size_variable_batch hfit hpre) /place_of_column /value.
case: ltnP => hv //=; have [h1 h2 _ _ _] := preprocessed_sizes hfit hpre.
rewrite /fixed_batch catA nth_cat size_cat h1 h2 ltnNge.
have -> : (n + n <= 2 * n + 2 + (i - (td_witness d + td_public_input d)))%N by move: n; slia.
have -> : (2 * n + 2 + (i - (td_witness d + td_public_input d)) - (n + n) = (i - (td_witness d + td_public_input d)).+2)%N by move: n; slia.
by [].
Qed.
Lemma permuted_columns_some : copy -> exists cols, omapM (vget (table_columns pt)) (cd_permuted_columns cd) = Some cols.
Proof.
move=> hc; move: hr; case/ogP=> _ /olP[p hp] _; move: hp; rewrite /run_permutation hc.
have [perm [[[_ ->] _] _ _ _ _]] := preprocessP hpre; case/olP=> _ [<-] /olP[cols hcols] _; by exists cols.
Qed.
Lemma permuted_in_table : all (fun i => i < table_width d)%N (cd_permuted_columns cd).
Proof.
case: (boolP copy) => hc; last by have [/size0nil-> _] := no_permuted iterationP hpre hc.
have [cols] := permuted_columns_some hc; rewrite -size_table_columns; elim: (cd_permuted_columns cd) cols => //= i l ih cols.
case: (ltnP i) => hi; last by rewrite vget_None.
by rewrite (vget_nth 0) //=; case e : (omapM _ l) => [l'|] //= _; apply: ih e.
Qed.
Lemma permuted_values cols x : omapM (vget (table_columns pt)) (cd_permuted_columns cd) = Some cols ->
  [seq value (place_of_column d n i).1 (place_of_column d n i).2 x | i <- cd_permuted_columns cd] = [seq c.[x] | c <- cols].
Proof.
have hv := column_value; move: hv; set f := fun i => value _ _ x => hv.
have {}hv i c : vget (table_columns pt) i = Some c -> f i = c.[x] by apply: hv.
elim: (cd_permuted_columns cd) cols => [|i l ih] cols /=; first by case=> <-.
case e : (vget _ i) => [c|] //=; case e' : (omapM _ l) => [l'|] //= [<-] /=; by rewrite (hv _ _ e) (ih _ e').
Qed.
Lemma variable_value_at v x : in_table d v -> exists2 p, variable_polynomial pt v = Some p & value (place_of d n v).1 (place_of d n v).2 x = p.[x].
Proof.
move=> hv; have [h1 h2 h3 h4 h5] := preprocessed_sizes hfit hpre.
have hw : size witnesses = td_witness d by case/and4P: hfit => /eqP.
have [i hi [hiw [hp _ _]]] := @places C H D cd d v hv.
have hvp : variable_polynomial pt v = vget (table_columns pt) i.
  case: v hv hi {hp} => j rt b ct; rewrite /in_table /global_index /variable_polynomial /table_columns /=.
  case: ct => //= hj [<-]; rewrite !vget_cat hw ?h3 ?h4.
  - by rewrite hj.
  - by rewrite ltnNge leq_addr /= addKn hj.
  - by rewrite -addnA ltnNge leq_addr /= addKn ltnNge leq_addr /= addKn hj.
  by rewrite -!addnA ltnNge leq_addr /= addKn ltnNge leq_addr /= addKn ltnNge leq_addr /= addKn.
rewrite hvp (vget_nth 0) ?size_table_columns //; eexists; first by [].
by rewrite -hp; apply: column_value; rewrite (vget_nth 0) ?size_table_columns.
Qed.

Local Arguments draw : simpl never.
Lemma draw_size m tr alphas tr' : draw challenge m tr = (alphas, tr') -> size alphas = m.
Proof. by move=> e; have := size_draw challenge m tr; rewrite e. Qed.

(** Values of the fixed batch *)
Lemma value_fixed x : [/\ [seq value FIXED_VALUES_BATCH i x | i <- iota 0 n] = [seq p.[x] | p <- pp_identity_polynomials pp],
  [seq value FIXED_VALUES_BATCH (n + i)%N x | i <- iota 0 n] = [seq p.[x] | p <- pp_permutation_polynomials pp],
  value FIXED_VALUES_BATCH (2 * n)%N x = (pp_q_last pp).[x] & value FIXED_VALUES_BATCH (2 * n + 1)%N x = (pp_q_blind pp).[x]].
Proof.
have [h1 h2 _ _ _] := preprocessed_sizes hfit hpre; rewrite /value /= /fixed_batch; split.
- have := values_of [::] (pp_identity_polynomials pp) (pp_permutation_polynomials pp ++ [:: pp_q_last pp; pp_q_blind pp] ++ pp_constants pp ++ pp_selectors pp) x.
  by rewrite /= h1.
- have := values_of (pp_identity_polynomials pp) (pp_permutation_polynomials pp) ([:: pp_q_last pp; pp_q_blind pp] ++ pp_constants pp ++ pp_selectors pp) x.
  by rewrite h1 h2 -{1}[n]addn0 iotaDl -map_comp.
- by rewrite catA nth_cat size_cat h1 h2 addnn -mul2n ltnn subnn.
by rewrite catA nth_cat size_cat h1 h2 addnn -mul2n ltnNge leq_addr /= addKn.
Qed.

(** The parts of the run *)
Lemma run_parts : exists p l g q, [/\ run_permutation omega challenge iteration pp witnesses d cs
      (variable_transcript tr_start absorb absorb_hash commit_polys scheme_setup pp witnesses) = Some p,
    run_lookup omega challenge absorb committable commit_polys pp witnesses cs p.2 = Some l,
    gates_prove_eval omega challenge (cs_gates cs) pt (N.of_nat (cd_max_gates_degree cd)) (1 - pp_q_last pp - pp_q_blind pp)
      (if copy || lookup then absorb l.2 (commit_polys (p.1.2 ++ l.1.2)) else l.2) = Some g,
    prover_quotient challenge pp cs d (p.1.1 ++ l.1.1.1 ++ [:: g.1]) g.2 = Some q &
    r = Run (setup_transcript tr_start absorb absorb_hash scheme_setup pp).1 p.1.1 p.1.2 l.1.1.1 l.1.1.2 l.1.2 g.1 q.1
      (challenge (absorb q.2 (commit_polys q.1))).1 (challenge (absorb q.2 (commit_polys q.1))).2].
Proof.
by move: hr; case/ogP=> _ /olP[p hp] /olP[l hl] /ogP[_] /olP[g hg] /olP[q hq] /ogP[_] [<-]; exists p, l, g, q.
Qed.

Lemma honest_permutation p tr x : run_permutation omega challenge iteration pp witnesses d cs tr = Some p ->
  r_perm_batch r = p.1.2 ->
  (if copy then
      perm_verify_eval challenge (cd_max_quotient_chunks cd) (cd_permutation_parts cd) (lagrange_polynomial omega (td_rows (cd_desc cd)) 0)
        [seq value FIXED_VALUES_BATCH i x | i <- iota 0 n] [seq value FIXED_VALUES_BATCH (n + i)%N x | i <- iota 0 n]
        (value FIXED_VALUES_BATCH (2 * n)%N x) (value FIXED_VALUES_BATCH (2 * n + 1)%N x) x
        [seq value (place_of_column d n i).1 (place_of_column d n i).2 x | i <- cd_permuted_columns cd]
        (value PERMUTATION_BATCH 0%N x) (value PERMUTATION_BATCH 0%N (x * omega))
        [seq value PERMUTATION_BATCH i x | i <- iota 1 (cd_permutation_parts cd - 1)] tr
    else Some ([:: 0; 0; 0], tr)) = Some ([seq f.[x] | f <- p.1.1], p.2).
Proof.
case: p => [[Fp bp] tr2]; rewrite /run_permutation; case: ifP => [hc|hc]; last by case=> <- _ <- /=; rewrite !horner0.
have [perm [[[_ ->] _] _ _ _ _]] := preprocessP hpre; case/olP=> _ [<-] /olP[cols hcols] hpe /= hb.
have [hsz [hpos _]] := run_permutation_size iterationP hpre hr.
have [e1 e2 e3 e4] := value_fixed x; rewrite (permuted_values x hcols) e1 e2 e3 e4.
case: bp hpe hb => [|V ps] hpe hb; first by move: (hpos hc); rewrite -hsz hb.
have hbt : batches r PERMUTATION_BATCH = Some ((V :: ps) ++ r_lookup_batch r) by rewrite /batches /= hc hb.
have := C24_agreement x hpe; rewrite /= => <-; congr perm_verify_eval.
- by rewrite /value hbt.
- by rewrite /value hbt /= mulrC.
rewrite /value hbt /= -hsz hb /= subn1 /=; exact: (values_of [:: V] ps (r_lookup_batch r) x).
Qed.

Lemma honest_lookup l tr x ev (cm : omapT C) : run_lookup omega challenge absorb committable commit_polys pp witnesses cs tr = Some l ->
  r_sorted r = l.1.1.2 -> r_lookup_batch r = l.1.2 -> (lookup -> om_get cm LOOKUP_BATCH = Some (commit_polys (r_sorted r))) ->
  (lookup -> options_sized (cs_lookup_tables cs)) ->
  (lookup -> (forall g v, List.In g (cs_lookup_gates cs) -> v \in lookup_gate_variables g -> opened omega pt ev x v) /\
    (forall tb v, List.In tb (cs_lookup_tables cs) -> v \in lookup_table_variables tb -> opened omega pt ev x v)) ->
  (if lookup then
      olet c <- om_get cm LOOKUP_BATCH;
      lookup_verify_eval challenge absorb (cs_lookup_gates cs) (cs_lookup_tables cs) (cd_max_quotient_chunks cd)
        [:: (lagrange_polynomial omega (td_rows (cd_desc cd)) 0).[x]; value FIXED_VALUES_BATCH (2 * n)%N x; value FIXED_VALUES_BATCH (2 * n + 1)%N x]
        [:: value FIXED_VALUES_BATCH (2 * n)%N (x * omega); value FIXED_VALUES_BATCH (2 * n + 1)%N (x * omega)] ev
        [seq [:: value LOOKUP_BATCH i x; value LOOKUP_BATCH i (x * omega); value LOOKUP_BATCH i (x * omega ^+ td_usable_rows d)] | i <- iota 0 (size (r_sorted r))]
        [:: value PERMUTATION_BATCH (cd_permutation_parts cd) x; value PERMUTATION_BATCH (cd_permutation_parts cd) (x * omega)]
        [seq value PERMUTATION_BATCH i x | i <- iota (cd_permutation_parts cd + 1) (cd_lookup_parts cd - 1)] c tr
    else Some ([:: 0; 0; 0; 0], ev, tr)) = Some ([seq f.[x] | f <- l.1.1.1], ev, l.2).
Proof.
case: l => [[[Fl so] bl] tr3]; rewrite /run_lookup; case: ifP => [hl|hl]; last by case=> <- _ _ <- /=; rewrite !horner0.
case/olP=> -[res tr'] hres /ogP[_] [e1 e2 e3 e4] /=; move: e1 e2 e3 e4 => /= <- <- <- <- hso hlb /(_ isT)-> /(_ isT) hopt /(_ isT)[ho1 ho2] /=.
have [perm [_ _ [[hd hch _ _ _] [_ hlp _ _]] _ _]] := preprocessP hpre.
have [_ _ f3 f4] := value_fixed x; have [_ _ f5 f6] := value_fixed (x * omega); rewrite f3 f4 f5 f6.
have hcm : commit_polys (r_sorted r) = lr_commitment res.
  rewrite hso; move: hres; rewrite /lookup_prove_eval; case: (challenge tr) => theta tr1; cbv zeta.
  case/olP=> lv _ /olP[li _] /olP[sv _]; case: (challenge _) => beta tr4; case: (challenge _) => gamma tr5; case: (draw challenge _ _) => al tr6.
  case/olP=> vl _ /ogP[_] /olP[gs _] /olP[hs _] /olP[fp _] /ogP[_]; case: (draw challenge _ _) => al3 tr7 [<- _] //.
have [hsz _] := run_permutation_size iterationP hpre hr.
have hbp : batches r PERMUTATION_BATCH = Some (r_perm_batch r ++ lr_V_L res :: lr_parts res) by rewrite /batches /= hl orbT hlb.
have hbl : batches r LOOKUP_BATCH = Some (lr_sorted res) by rewrite /batches /= hl hso.
have := C27_agreement hres hopt ho1 ho2; rewrite /= hd => <-; rewrite hcm; congr lookup_verify_eval.
- by rewrite [omega * x]mulrC.
- rewrite hso -[in RHS](mkseq_nth 0 (lr_sorted res)) -map_comp; apply/eq_map => i /=.
  by rewrite /value hbl /= mulrC [x * _ ^+ _]mulrC.
- by rewrite /value hbp /= nth_cat hsz ltnn subnn /= mulrC.
rewrite hlp -hch -/(lookup_data_of omega pp cs) -(size_lr_parts hres) -hsz addn1 /value hbp /=.
have := values_of (rcons (r_perm_batch r) (lr_V_L res)) (lr_parts res) [::] x; rewrite cats0 size_rcons => <-.
by rewrite cat_rcons.
Qed.

(** What the verifier computes from the values of the prover's polynomials. *)
Variables (z : eval_storage F) (commitments : omapT C).
Hypotheses (hz : forall k, om_get z k = omap (fun b => [seq [seq (nth 0 b i).[x] | x <- points (r_y r) k i] | i <- iota 0 (size b)]) (batches r k))
  (hcm : forall k, k != FIXED_VALUES_BATCH -> om_get commitments k = omap commit_polys (batches r k))
  (hwithin : within d cs) (hopt : lookup -> options_sized (cs_lookup_tables cs)) (hdeg : N.lt (N.of_nat (cd_max_gates_degree cd)) (N.pow 2 31)).
Notation y := (r_y r).
Notation Fs := (r_F_perm r ++ r_F_lookup r ++ [:: r_F_gates r]).
Notation rows := (td_rows d).
Lemma foldl_zip (A B : Type) (R : zmodType) (f : A -> B -> R) a b acc :
  foldl (fun acc (ab : A * B) => acc + f ab.1 ab.2) acc (zip a b) = acc + \sum_(ab <- zip a b) f ab.1 ab.2.
Proof.
elim: (zip a b) acc => [|u l ih] acc /=; first by rewrite big_nil addr0.
by rewrite ih big_cons addrA.
Qed.

Lemma honest_verifier pi s' : exists alphas,
  let q := quotient_polynomial alphas Fs (vanishing_polynomial F rows) in
  [/\ size alphas = 8%N,
      quotient_chunks (coefficients q) rows (split_polynomial_size rows n (lookup_poly_degree_bound cs) (cd_max_gates_degree cd) chunks) = Some (r_chunks r) &
      placeholder_verify omega tr_start challenge absorb absorb_hash scheme_setup scheme_verify_eval cd (Proof commitments y (z, pi)) d cs s' =
      olet sv <- obnd (verifier_batch_sizes cs z s') (verifier_evaluation_points omega cd cs d y);
      olet res <- scheme_verify_eval (r_data r) sv (z, pi) (om_set commitments FIXED_VALUES_BATCH (cd_fixed_values cd)) (r_transcript r);
      Some (res.1 && ((\sum_(aF <- zip alphas Fs) aF.1 *: aF.2).[y] == (vanishing_polynomial F rows).[y] * recombine rows y [seq t.[y] | t <- r_chunks r]))].
Proof.
have [perm [_ _ [[hd hch _ _ _] [_ hlp hrots _]] _ _]] := preprocessP hpre.
have [hrp [hpos _]] := run_permutation_size iterationP hpre hr; have hnp := no_permuted iterationP hpre.
have hz' k : om_get z k = omap (fun m => [seq [seq value k i x | x <- points y k i] | i <- iota 0 m]) (omap size (batches r k)).
  by rewrite hz /value; case: (batches r k).
have hso : lookup -> omap size (batches r LOOKUP_BATCH) = Some (size (r_sorted r)) by rewrite /batches /= => ->.
have [cols hcols hver] := verifier_reads hrots hpos hz' (congr1 Some (size_fixed_batch hfit hpre)) (congr1 Some (size_variable_batch hfit hpre))
  perm_batch_size lookup_parts_pos tr_start challenge absorb absorb_hash scheme_setup scheme_verify_eval commitments pi s' permuted_in_table
  hso (erefl (Some (size (r_chunks r)))).
have hop v : in_table d v ->
  [\/ exists2 g, List.In g (cs_gates cs) & v \in gate_variables g,
      lookup /\ (exists2 g, List.In g (cs_lookup_gates cs) & v \in lookup_gate_variables g) |
      lookup /\ (exists2 tb, List.In tb (cs_lookup_tables cs) & v \in lookup_table_variables tb)] -> opened omega pt cols y v.
  move=> hv hu; have [i hi _] := @places C H D cd d v hv; have hrt := rotated hrots hv hi hu.
  by have [p hp he] := variable_value_at (y * omega ^ pv_rotation v) hv; exists p => //; rewrite (hcols _ _ hv hi hrt) he mulrC.
have [h1 h2] := hwithin; have hog g v : List.In g (cs_gates cs) -> v \in gate_variables g -> opened omega pt cols y v.
  by move=> hg hv; apply: hop; [apply: h1 hg hv|apply: Or31; exists g].
have hol : lookup -> (forall g v, List.In g (cs_lookup_gates cs) -> v \in lookup_gate_variables g -> opened omega pt cols y v) /\
    (forall tb v, List.In tb (cs_lookup_tables cs) -> v \in lookup_table_variables tb -> opened omega pt cols y v).
  move=> hl; have [h3 h4] := h2 hl; split=> [g v hg hv|tb v htb hv]; apply: hop; [exact: h3 hg hv|by apply: Or32; split=> //; exists g|
    exact: h4 htb hv|by apply: Or33; split=> //; exists tb].
have [p [l [g [q [hp hl hg hq er]]]]] := run_parts.
move: hq; rewrite /prover_quotient hd; case ea : (draw challenge 8 g.2) => [alphas tr5]; cbv zeta; case/olP=> ch hchk [eq].
have [hid _ _ _ _] := preprocessed_sizes hfit hpre; rewrite hid hch in hchk.
exists alphas => /=; split; first exact: draw_size ea.
  by rewrite er /= -eq.
have [e1 eFp ebp eFl] : [/\ r_data r = (setup_transcript tr_start absorb absorb_hash scheme_setup pp).1, r_F_perm r = p.1.1,
  r_perm_batch r = p.1.2 & r_F_lookup r = l.1.1.1] by rewrite er.
have [eso elb eFg ech] : [/\ r_sorted r = l.1.1.2, r_lookup_batch r = l.1.2, r_F_gates r = g.1 & r_chunks r = q.1] by rewrite er.
have ey : challenge (absorb q.2 (commit_polys q.1)) = (r_y r, r_transcript r) by rewrite er -surjective_pairing.
move: (er) => _; clear er; rewrite hver /verifier_on /= -/(setup_transcript tr_start absorb absorb_hash scheme_setup pp).
move: hp; rewrite /variable_transcript e1; case: (setup_transcript _ _ _ _ _) => data tr0 /= hp.
rewrite hcm //= (@honest_permutation p _ y hp) //= (@honest_lookup l p.2 y cols commitments hl) //=; last by move=> hlk; rewrite hcm // /batches /= hlk.
have -> : (if copy || lookup then obnd (om_get commitments PERMUTATION_BATCH) (fun c => Some (absorb l.2 c)) else Some l.2) =
  Some (if copy || lookup then absorb l.2 (commit_polys (p.1.2 ++ l.1.2)) else l.2).
  by case hcl : (copy || lookup) => //; rewrite hcm // /batches /= hcl /= ebp elb.
rewrite /=; have [_ _ f3 f4] := value_fixed y; rewrite f3 f4 (verifier_ok challenge _ _ hog) /=.
have hg' : forall g v, List.In g (cs_gates cs) -> v \in gate_variables g -> isSome (variable_value omega pt v).
  by move=> g0 v hg0 hv; have [] := opened_val (hog _ _ hg0 hv).
move: hg; rewrite (prover_ok _ _ _ hdeg hg'); set tr3 := (if copy || lookup then _ else _) => -[eg].
have <- : g.2 = (challenge tr3).2 by rewrite -eg.
rewrite ea /= hcm //= ech; move: ey; rewrite -eq /= => ->; rewrite eqxx.
case: (obnd (verifier_batch_sizes cs z s') _) => //= sv; case: (scheme_verify_eval _ _ _ _ _) => //= -[b tr7] /=; congr (Some (_ && _)).
rewrite hd; have -> : [seq value QUOTIENT_BATCH i y | i <- iota 0 (size ch)] = [seq t.[y] | t <- ch].
  by have := values_of [::] ch [::] y; rewrite cats0 /= /value /batches /= ech -eq.
congr (_ == _); rewrite foldl_zip add0r horner_sum; have -> : (the_sum omega pt (cs_gates cs) (challenge tr3).1).[y] * (1 - (pp_q_last pp).[y] - (pp_q_blind pp).[y]) = (r_F_gates r).[y].
  by rewrite eFg -eg /= hornerM !hornerD !hornerN horner_1.
rewrite -eFp -eFl -[[:: (r_F_gates r).[y]]]/(map (horner^~ y) [:: r_F_gates r]) -!map_cat.
elim: alphas Fs {ea hchk} => [|a al ih] [|f fs]; rewrite /= ?big_nil // !big_cons ih hornerZ //.
Qed.
End Main.
End Honest.
