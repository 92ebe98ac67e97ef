(** C27: prover and verifier of the lookup argument compute the same thing. *)
From Coq Require Import NArith.
From mathcomp Require Import all_ssreflect all_algebra.
From Verif.Model Require Import Base HashMap OrderedMap Expression PlonkVariable PlonkTable PermutationArgument GatesArgument LookupArgument.
From Verif.Proofs Require Import NatTac FieldTac KzgProofs PermProofs ExprProofs PermArgProofs GatesProofs LookupProofs.
From Verif.Props Require Import C15_CachedEvaluation C24_PermutationAgreement C26_LookupCompleteness C29_GatesArgument.
Set Implicit Arguments.
Unset Strict Implicit.
Unset Printing Implicit Defensive.
Import GRing.Theory.
Local Open Scope ring_scope.

Section C27.
Variables (F : fieldType) (omega : F) (rows : nat) (T : Type) (challenge : T -> F * T).
Variables (C : Type) (absorb : T -> C -> T) (commit : seq {poly F} -> C).
Notation variable := [eqType of plonk_variable].
Notation ev_find := (hm_find (@eq_op [eqType of evaluation_key])).
Implicit Types (pt : polynomial_table F) (gates : seq (lookup_gate F)) (tables : seq lookup_table) (ev : evaluation_map F).

(** ** Specification *)
(** The variables a lookup reads: the selector and the inputs of every lookup gate; of every table the selector and the
    columns of the options, on the current and on the next row. *)
Definition lookup_gate_variables (g : lookup_gate F) : seq plonk_variable :=
  selector_variable (lg_tag_index g) :: flatten [seq flatten [seq for_each_variable e | e <- lc_lookup_input c] | c <- lg_constraints g].
Definition lookup_table_variables (tb : lookup_table) : seq plonk_variable :=
  flatten [seq PlonkVariable (lt_tag_index tb) r false CSelector :: [seq PlonkVariable (pv_index v) r false CConstant | v <- flatten (lt_lookup_options tb)] | r <- [:: 0; 1] : seq int].
(** every option has as many columns as its table ([append_option] asserts it) *)
Definition options_sized tables : Prop := forall tb o, List.In tb tables -> o \in lt_lookup_options tb -> size o = lt_columns_number tb.

(** ** Lemmas *)
Lemma option_columnsM pt tb o : size o = lt_columns_number tb -> option_columns pt tb o = omapM (fun v => vget (pl_constants pt) (pv_index v)) o.
Proof.
move=> ho; rewrite /option_columns -ho.
have e2 : forall k (pre : seq plonk_variable), size pre = k ->
  omapM (fun i => olet v <- vget (pre ++ o) i; vget (pl_constants pt) (pv_index v)) (iota k (size o)) =
  omapM (fun v => vget (pl_constants pt) (pv_index v)) o.
  elim: o {ho} => [|v o ih] k pre hk //=.
  have -> : vget (pre ++ v :: o) k = Some v by rewrite -hk; elim: (pre).
  by rewrite /= -cat_rcons ih ?size_rcons ?hk.
exact: (e2 0%N [::]).
Qed.
Lemma ev_indicesE ev (f : evaluation_key -> F) (ks : seq evaluation_key) : (forall k, k \in ks -> ev_find ev k = Some (f k)) ->
  ev_indices ev ks = ([seq f k | k <- ks], ev).
Proof.
rewrite /ev_indices => h; have : forall acc, foldl (fun st k => let (x, ev) := ev_index st.2 k in (rcons st.1 x, ev)) (acc, ev) ks = (acc ++ [seq f k | k <- ks], ev); last exact.
elim: ks h => [|k ks ih] h acc /=; first by rewrite cats0.
by rewrite {2}/ev_index h ?mem_head // ih ?cat_rcons // => k' hk'; apply: h; rewrite inE hk' orbT.
Qed.
Lemma constants_opened pt ev y (r : int) (o : seq plonk_variable) cols :
  (forall v, v \in o -> opened omega pt ev y (PlonkVariable (pv_index v) r false CConstant)) ->
  omapM (fun v => vget (pl_constants pt) (pv_index v)) o = Some cols ->
  ev_indices ev [seq (pv_index v, r, CConstant) | v <- o] = ([seq c.[omega ^ r * y] | c <- cols], ev).
Proof.
move=> h e; rewrite (@ev_indicesE ev (fun k => odflt 0 (ev_find ev k))); last first.
  by move=> k /mapP[v hv ->]; have [p _ /= ->] := h v hv.
congr (_, _); rewrite -map_comp; elim: o cols h e => [|v o ih] cols h /=; first by case=> <-.
have [p e1 e2] := h v (mem_head _ _); rewrite [vget _ _]e1 /=; case e : (omapM _ o) => [r'|] //= [<-] /=.
move: e2; rewrite /= => -> /=; congr (_ :: _); apply: ih => // v' hv'; apply: h; by rewrite inE hv' orbT.
Qed.
Lemma selector_opened pt ev y (r : int) i p : opened omega pt ev y (PlonkVariable i r false CSelector) ->
  vget (pl_selectors pt) i = Some p -> ev_index ev (i, r, CSelector) = (p.[omega ^ r * y], ev).
Proof. by move=> [q h1 h2] e; move: h1; rewrite /variable_polynomial /= e => -[eq]; rewrite /ev_index [ev_find _ _]h2 eq. Qed.

Lemma verify_tablesE pt ev y theta (mask : {poly F}) k tables vs acc : options_sized tables ->
  (forall tb v, List.In tb tables -> v \in lookup_table_variables tb -> opened omega pt ev y v) ->
  prepare_lookup_value pt theta mask k tables = Some vs ->
  verify_tables theta mask.[y] mask.[omega * y] k tables (acc, ev) = Some (acc ++ [seq (v.[y], v.[omega * y]) | v <- vs], ev).
Proof.
elim: tables k vs acc => [|tb tables ih] k vs acc hsz ho /=; first by case=> <-; rewrite cats0.
case es : (vget (pl_selectors pt) _) => [tag|] //=; case eo : (omapM _ _) => [ls|] //=; case er : (prepare_lookup_value _ _ _ _ _) => [rest|] //= [<-].
have hop v : v \in lookup_table_variables tb -> opened omega pt ev y v by move=> hv; apply: (ho tb) => //; left.
rewrite (@selector_opened pt ev y 0 _ tag) //; last by apply: hop; rewrite inE eqxx.
rewrite (@selector_opened pt ev y 1 _ tag) //; last by apply: hop; rewrite /lookup_table_variables /= !(mem_cat, inE) eqxx !orbT.
rewrite expr0z expr1z mul1r.
suff -> : ofold (verify_option theta tag.[y] tag.[omega * y] mask.[y] mask.[omega * y] tb k) (acc, ev) (lt_lookup_options tb) =
    Some (acc ++ [seq (v.[y], v.[omega * y]) | v <- ls], ev).
  rewrite /= (ih _ rest) ?map_cat ?catA // => [tb' o h|tb' v h]; [apply: hsz|apply: ho]; by right.
have hc (r : int) o v : r \in [:: 0; 1] -> o \in lt_lookup_options tb -> v \in o -> opened omega pt ev y (PlonkVariable (pv_index v) r false CConstant).
  move=> hr h1 h2; apply: hop; apply/flattenP; eexists; first by apply/mapP; exists r; first exact: hr.
  by rewrite inE; apply/orP; right; apply/mapP; exists v => //; apply/flattenP; exists o.
have {}hsz o : o \in lt_lookup_options tb -> size o = lt_columns_number tb by move=> h; apply: (hsz tb) => //; left.
elim: (lt_lookup_options tb) ls acc eo hc hsz => [|o os iho] ls acc /=; first by case=> <-; rewrite cats0.
case ec : (option_columns pt tb o) => [cols|] //=; case eo : (omapM _ os) => [ls'|] //= [<-] hc hsz.
have hs := hsz o (mem_head _ _); rewrite {1}/verify_option hs eqxx /=.
move: ec; rewrite (option_columnsM _ hs) => ec.
rewrite (@constants_opened pt ev y 0 o cols) // => [|v hv]; last by apply: (hc _ o) => //; rewrite ?mem_head.
rewrite (@constants_opened pt ev y 1 o cols) // => [|v hv]; last by apply: (hc _ o) => //; rewrite ?mem_head.
rewrite /= (iho ls') //= => [|r o' v hr ho' hv|o' ho']; [|by apply: (hc _ o') => //; rewrite inE ho' orbT|by apply: hsz; rewrite inE ho' orbT].
by rewrite cat_rcons /= !hornerM !compress_at !hornerC !hornerZ expr0z expr1z mul1r ![k.+1%:R * _]mulrC.
Qed.

Lemma verify_gatesE pt ev y theta gates li acc :
  (forall g v, List.In g gates -> v \in lookup_gate_variables g -> opened omega pt ev y v) ->
  prepare_lookup_input omega pt theta gates = Some li ->
  ofold (verify_lookup_gate theta) (acc, ev) gates = Some (acc ++ [seq l.[y] | l <- li], ev).
Proof.
elim: gates li acc => [|g gates ih] li acc ho /=; first by case=> <-; rewrite cats0.
case es : (vget (pl_selectors pt) _) => [tag|] //=; case eo : (omapM _ _) => [ls|] //=; case er : (prepare_lookup_input _ _ _ _) => [rest|] //= [<-].
have hop v : v \in lookup_gate_variables g -> opened omega pt ev y v by move=> hv; apply: (ho g) => //; left.
rewrite {1}/verify_lookup_gate /= (@selector_opened pt ev y 0 _ tag) //; last by apply: hop; rewrite inE eqxx.
rewrite expr0z mul1r.
suff -> : omapM (fun c => olet xs <- omapM (fun e => map_evaluate e ev) (lc_lookup_input c);
      Some (compress tag.[y] theta (tag.[y] * (lc_table_id c)%:R) xs)) (lg_constraints g) = Some [seq l.[y] | l <- ls].
  by rewrite /= (ih rest) ?map_cat ?catA // => g' v h; apply: ho; right.
have {}hop v : v \in flatten [seq flatten [seq for_each_variable e | e <- lc_lookup_input c] | c <- lg_constraints g] -> opened omega pt ev y v.
  by move=> hv; apply: hop; rewrite inE hv orbT.
elim: (lg_constraints g) ls hop eo => [|c cs ihc] ls hop /=; first by case=> <-.
case ex : (omapM _ (lc_lookup_input c)) => [xs|] //=; case ec : (omapM _ cs) => [ls'|] //= [<-].
rewrite (ihc ls') // => [|v hv]; last by apply: hop; rewrite /= mem_cat hv orbT.
suff -> : omapM (fun e => map_evaluate e ev) (lc_lookup_input c) = Some [seq x.[y] | x <- xs].
  by rewrite /= compress_at hornerC hornerZ mulrC.
have {}hop v : v \in flatten [seq for_each_variable e | e <- lc_lookup_input c] -> opened omega pt ev y v.
  by move=> hv; apply: hop; rewrite /= mem_cat hv.
elim: (lc_lookup_input c) xs hop ex => [|e es' ihe] xs hop /=; first by case=> <-.
case ep : (input_polynomial _ _ _) => [p|] //=; case ee : (omapM _ es') => [xs'|] //= [<-].
rewrite (ihe xs') // => [|v hv]; last by apply: hop; rewrite /= mem_cat hv orbT.
suff -> : map_evaluate e ev = Some p.[y] by [].
have hall v : v \in for_each_variable e -> ev_find ev (variable_key v) = Some (val omega pt v).[y].
  by move=> hv; apply: (proj2 (opened_val _)); apply: hop; rewrite /= mem_cat hv.
rewrite /map_evaluate /evaluate_opt ifT; last by apply/allP => v /hall ->.
move: ep; rewrite /input_polynomial; case: ifP => // _.
have [st [est _]] := C15_fresh (val omega pt) (convert_expr id polyC e : expr [eqType of plonk_variable] [comRingType of {poly F}]).
rewrite [cached_evaluate _ _ _]est /= => -[<-]; congr Some; rewrite evaluate_at.
by apply: evaluate_ext => v /hall ->.
Qed.

Lemma group_map (R S : ringType) (f : {rmorphism R -> S}) parts (gs : seq R) :
  group_products parts [seq f g | g <- gs] = omap (map f) (group_products parts gs).
Proof.
rewrite /group_products.
have H res acc k : ofold (group_step parts) ([seq f x | x <- res], [seq f x | x <- acc], k) [seq f g | g <- gs] =
    omap (fun st => ([seq f x | x <- st.1.1], [seq f x | x <- st.1.2], st.2)) (ofold (group_step parts) (res, acc, k) gs).
  elim: gs res acc k => [|g gs ih] res acc k //=; case: (vget parts k) => //= p.
  rewrite !size_rcons size_map -map_rcons; case: ifP => _; last exact: ih.
  rewrite big_map (_ : \prod_(x <- rcons acc g) f x = f (\prod_(x <- rcons acc g) x)); last by rewrite rmorph_prod.
  by rewrite -map_rcons; apply: (ih _ [::]).
rewrite (H [::] [::] 0%N); case: (ofold _ _ _) => [st|] //=; rewrite size_map; by case: ifP.
Qed.
Lemma group_at parts (gs : seq {poly F}) y r : group_products parts gs = Some r ->
  group_products parts [seq g.[y] | g <- gs] = Some [seq g.[y] | g <- r].
Proof. by move=> e; have := group_map [rmorphism of horner_eval y] parts gs; rewrite e. Qed.

Lemma group_size (R : ringType) parts (gs : seq R) r : group_products parts gs = Some r -> (size r <= size parts)%N.
Proof.
rewrite /group_products; have H res acc k st : (size res = k)%N -> (k <= size parts)%N -> ofold (group_step parts) (res, acc, k) gs = Some st -> (size st.1.1 <= size parts)%N.
  elim: gs res acc k => [|g gs ih] res acc k hk hle /=; first by case=> <- /=; rewrite hk.
  case e : (vget parts k) => [p|] //=; have hlt : (k < size parts)%N.
    by rewrite ltnNge; apply/negP => h; move: e; rewrite vget_None.
  by case: ifP => _; apply: ih => //; rewrite size_rcons hk.
by case e : (ofold _ _ _) => [st|] //=; case: ifP => // _ [<-]; apply: H e.
Qed.
Lemma size_lookup_parts gates tables max : (0 < size (lookup_parts gates tables max))%N.
Proof. by rewrite /lookup_parts; case: ifP => // _; rewrite size_rcons. Qed.

Add Field Ff_c27 : (@ffield_theory F).
Lemma ring3 (a b w h v g : F) : (g * v - h * w) * (a + b - 1) = (1 - (a + b)) * (w * h - v * g).
Proof. fring F. Qed.
Lemma ring4 (a b c l : F) : (a - b) * (c * l) = (a - b) * c * l.
Proof. fring F. Qed.

(** From the same transcript, the verifier run on the values of the prover's polynomials at [y] (and at [omega * y] and
    [omega^usable * y] where it needs them) returns the values at [y] of the prover's constraint polynomials and the same
    transcript, and leaves the evaluation map unchanged; with one part or several. *)
Theorem C27_agreement ld pt ev tr res tr' y :
  lookup_prove_eval omega rows challenge absorb commit ld pt tr = Some (res, tr') ->
  options_sized (ld_tables ld) ->
  (forall g v, List.In g (ld_gates ld) -> v \in lookup_gate_variables g -> opened omega pt ev y v) ->
  (forall tb v, List.In tb (ld_tables ld) -> v \in lookup_table_variables tb -> opened omega pt ev y v) ->
  lookup_verify_eval challenge absorb (ld_gates ld) (ld_tables ld) (ld_max_quotient_chunks ld)
    [:: (ld_lagrange_0 ld).[y]; (ld_q_last ld).[y]; (ld_q_blind ld).[y]] [:: (ld_q_last ld).[omega * y]; (ld_q_blind ld).[omega * y]]
    ev [seq [:: s.[y]; s.[omega * y]; s.[omega ^+ ld_usable_rows ld * y]] | s <- lr_sorted res]
    [:: (lr_V_L res).[y]; (lr_V_L res).[omega * y]] [seq p.[y] | p <- lr_parts res] (lr_commitment res) tr
  = Some ([seq f.[y] | f <- lr_F res], ev, tr').
Proof.
move=> hp hsz hog hot; move: hp; rewrite /lookup_prove_eval /lookup_verify_eval; case: (challenge tr) => theta tr1.
set mask := 1 - _ - _; case ev1 : (prepare_lookup_value _ _ _ _ _) => [lv|] //=; case ei1 : (prepare_lookup_input _ _ _ _) => [li|] //=.
case: (sort_polynomials _ _ _ _) => [sv|] //=; set sorted := [seq dfs_of_values _ _ s | s <- sv].
have hm x : 1 - ((ld_q_last ld).[x] + (ld_q_blind ld).[x]) = mask.[x] by rewrite /mask !hornerD !hornerN horner_1 opprD addrA.
clearbody mask.
case e2 : (challenge (absorb tr1 _)) => [beta tr2]; case e3 : (challenge tr2) => [gamma tr3].
set ps := lookup_parts _ _ _; have := size_draw challenge (size ps - 1) tr3; case e4 : (draw _ _ tr3) => [alphas tr4] /= hal.
case evl : (V_L_values _ _ _ _ _ _ _) => [vl|] //=; case: ifP => // /eqP hsum.
case eg : (group_products _ _) => [gs|] //=; case eh : (group_products _ _) => [hs|] //=.
set V_L := dfs_of_values _ _ vl.
set fp := (if _ then _ else _); case efp : fp => [[f2 parts]|] //=; case: ifP => // hs0; case e5 : (draw _ _ tr4) => [alphas3 tr5] [<- <-] /=.
rewrite e2 e3 e4 /= !hm (verify_tablesE _ hsz hot ev1) /= (verify_gatesE _ hog ei1) /=.
have hgs : vgroup_products ps ([seq (1 + beta) * (gamma + l) | l <- [seq l.[y] | l <- li]] ++
    [seq (1 + beta) * gamma + v.1 + beta * v.2 | v <- [seq (v.[y], v.[omega * y]) | v <- lv]]) = Some [seq g.[y] | g <- gs].
  rewrite vgroup_productsE -(group_at y eg) map_cat -!map_comp; congr (group_products _ (_ ++ _)); apply: eq_map => l /=.
    by rewrite hornerZ hornerD hornerC.
  by rewrite !hornerD hornerC hornerZ shift1_at.
have ehf : omapM (fun s : seq F => obnd (vget s 0) (fun s0 => obnd (vget s 1) (fun s1 => Some ((1 + beta) * gamma + s0 + beta * s1))))
    [seq [:: s.[y]; s.[omega * y]; s.[omega ^+ ld_usable_rows ld * y]] | s <- sorted] = Some [seq h.[y] | h <- h_factors omega sorted beta gamma].
  rewrite /h_factors; elim: (sorted) => [|s ss ih] //=; rewrite ih /=; congr (Some (_ :: _)).
  by rewrite !hornerD hornerC hornerZ shift1_at.
clearbody sorted; rewrite hgs ehf /= vgroup_productsE (group_at y eh) /= !size_map.
have {efp} [hparts hF2] : (size parts = size ps - 1)%N /\ (if size ps == 1%N then
      olet g <- vget [seq g.[y] | g <- gs] 0; olet h <- vget [seq h.[y] | h <- hs] 0;
      Some (mask.[y] * (V_L.[omega * y] * h - V_L.[y] * g))
    else olet s <- perm_vsum alphas [seq g.[y] | g <- gs] [seq h.[y] | h <- hs] [seq p.[y] | p <- parts] V_L.[y] V_L.[omega * y];
      Some (s * ((ld_q_last ld).[y] + (ld_q_blind ld).[y] - 1))) = Some f2.[y] /\ size gs = (size parts).+1 /\ size hs = (size parts).+1.
  have hps : (0 < size ps)%N by exact: size_lookup_parts.
  move: efp; rewrite /fp; case: (eqVneq (size ps) 1%N) => h1.
    have := group_size eg; have := group_size eh; rewrite -/ps h1; case: (gs) => [|g [|? ?]] //=; case: (hs) => [|h [|? ?]] //= _ _ [<- <-].
    by split=> //; split=> //; rewrite !(hornerM, hornerD, hornerN) shift1_at horner_1 -hm ring3.
  case: ifP => // /eqP hg; case: ifP => // /eqP hh; case es : (perm_sum _ _ _ _ _ _) => [s|] //= [<- <-].
  rewrite size_map size_perm_parts ?size_takel -?hg -?hh ?leq_subr // subn1 prednK // -subn1; split=> //; split=> //.
  by have := perm_sum_at y es; rewrite shift1_at => ->; rewrite /= hornerM !hornerD hornerN horner_1.
have [hF2' [-> ->]] := hF2; rewrite hal -hparts !eqxx /= hF2' /= e5 /=.
set ss := [seq _ | s <- sorted].
have -> : omapM (fun x : F * (seq F * seq F) => obnd (vget x.2.1 0) (fun s0 => obnd (vget x.2.2 2) (fun s2 => Some ((s0 - s2) * x.1 * (ld_lagrange_0 ld).[y]))))
    (zip alphas3 (zip (behead ss) ss)) = Some [seq ((x.2.1 - polynomial_shift omega x.2.2 (ld_usable_rows ld)%:Z) * (x.1 *: ld_lagrange_0 ld)).[y] | x <- zip alphas3 (zip (behead sorted) sorted)].
  rewrite /ss behead_map; move: (behead sorted) => bs; elim: alphas3 bs (sorted) {e5} => [|a al ih] [|s1 s1s] [|s2 s2s] //=; rewrite ih /=.
  by congr (Some (_ :: _)); rewrite hornerM hornerD hornerN hornerZ shift_at -exprnP ring4.
rewrite /= big_map; congr (Some ([:: _; _; _; _], _, _)).
- by rewrite hornerM hornerD hornerN horner_1 mulrC.
- by rewrite !(hornerM, hornerD, hornerN).
by rewrite horner_sum.
Qed.

(** the sizes of what the prover returns *)
Lemma size_lr_parts ld pt tr res tr' : lookup_prove_eval omega rows challenge absorb commit ld pt tr = Some (res, tr') ->
  size (lr_parts res) = (size (lookup_parts (ld_gates ld) (ld_tables ld) (ld_max_quotient_chunks ld)) - 1)%N.
Proof.
rewrite /lookup_prove_eval; case: (challenge tr) => theta tr1.
case: (prepare_lookup_value _ _ _ _ _) => [lv|] //=; case: (prepare_lookup_input _ _ _ _) => [li|] //=.
case: (sort_polynomials _ _ _ _) => [sv|] //=; set sorted := [seq dfs_of_values _ _ s | s <- sv].
case: (challenge _) => beta tr2; case: (challenge tr2) => gamma tr3.
set ps := lookup_parts _ _ _; case: (draw _ _ tr3) => alphas tr4 /=.
case: (V_L_values _ _ _ _ _ _ _) => [vl|] //=; case: ifP => // _.
case: (group_products _ _) => [gs|] //=; case: (group_products _ _) => [hs|] //=.
set fp := (if _ then _ else _); case efp : fp => [[f2 parts]|] //=; case: ifP => // hs0; case: (draw _ _ tr4) => alphas3 tr5 [<- _] /=.
move: efp; rewrite /fp; case: (eqVneq (size ps) 1%N) => h1.
  by rewrite h1; case: (vget gs 0) => //= g; case: (vget hs 0) => //= h [_ <-].
case: ifP => // /eqP hg; case: ifP => // /eqP hh; case: (perm_sum _ _ _ _ _ _) => [s|] //= [_ <-].
by rewrite size_map size_perm_parts ?size_takel -?hg -?hh ?leq_subr.
Qed.
End C27.

(** An evaluation map with given variables exists when their columns do. *)
Lemma openable (F : fieldType) (omega y : F) (pt : polynomial_table F) (vs : seq plonk_variable) :
  (forall v, v \in vs -> isSome (variable_polynomial pt v)) -> exists ev, forall v, v \in vs -> opened omega pt ev y v.
Proof.
move=> h; exists [seq (variable_key v, (odflt 0 (variable_polynomial pt v)).[omega ^ pv_rotation v * y]) | v <- vs] => v hv.
have := h v hv; case e : (variable_polynomial pt v) => [p|] // _; exists p => //; rewrite -/(variable_key v).
have e' v' : v' \in vs -> variable_key v' == variable_key v -> (odflt 0 (variable_polynomial pt v')).[omega ^ pv_rotation v' * y] = p.[omega ^ pv_rotation v * y].
  by move=> _ /eqP[e1 e2 e3]; rewrite e2 /variable_polynomial e1 e3 -/(variable_polynomial pt v) e.
elim: vs {h} hv e' => [|v' vs ih] //=; rewrite inE => hv e'; case: (eqVneq (variable_key v') (variable_key v)) => ek.
  by rewrite (e' v') ?mem_head ?ek ?eqxx.
apply: ih; first by case/orP: hv ek => [/eqP->|//]; rewrite eqxx.
by move=> v'' hv''; apply: e'; rewrite inE hv'' orbT.
Qed.
Lemma dvd_64 : (4 %| 2 ^ 64)%N. Proof. rewrite -[4%N]/(2 ^ 2)%N; exact: dvdn_exp2l. Qed.
(** The lookup of C26 (four rows over F_17, one table of two rows, two parts): the prover returns, and there is an evaluation
    map with the values that the verifier reads at the point 3. *)
Example C27_witness : let F := [fieldType of 'F_17] in let omega : F := 4%:R in
  exists pt res tr' ev, let ld := preprocessed_lookup omega 4 3 witness_gates witness_tables 4 in
  [/\ lookup_prove_eval omega 4 (fun n : nat => (n%:R, n.+1)) (fun tr _ => tr) id ld pt 3%N = Some (res, tr'),
   options_sized (ld_tables ld), size (lr_parts res) = 1%N,
   (forall g v, List.In g (ld_gates ld) -> v \in lookup_gate_variables g -> opened omega pt ev 3%:R v) &
   (forall tb v, List.In tb (ld_tables ld) -> v \in lookup_table_variables tb -> opened omega pt ev 3%:R v)].
Proof.
move=> F omega; have [[h1 [h2 _]] [h4 h5] [h6 h7] [h8 h9] [h10 h11]] := C26_witness.
move: h2; case ept : (polynomials_of_table _ 4 witness_table) => [pt|] // _; exists pt.
have := @C26_complete _ omega 4 3 h1 isT isT nat (fun n : nat => (n%:R, n.+1)) _ (fun tr _ => tr) id witness_gates witness_tables witness_table pt 4 3%N ept dvd_64 h4 h5 h6 h7 isT (or_intror h8) h10.
move=> [sorted H]; have [res [tr' [e1 _ _ _ _]]] := H h11; exists res, tr'.
pose vs := flatten [seq lookup_gate_variables g | g <- witness_gates] ++ flatten [seq lookup_table_variables tb | tb <- witness_tables].
have hcol : all (fun v => isSome (variable_column witness_table v)) vs by [].
have hvp v : v \in vs -> isSome (variable_polynomial pt v).
  move/(allP hcol); rewrite (table_polynomial v ept); case e : (variable_column _ v) => [col|] //= _.
  by have [h _] := column_size ept e; rewrite /column_polynomial_dfs h eqxx.
have [ev hev] := openable omega (3%:R : F) hvp; exists ev => ld; split.
- exact: e1.
- by move=> tb o [<-|[]] //; rewrite inE => /eqP->.
- by rewrite (size_lr_parts e1) h9.
- move=> g v [<-|[]] // hv; apply: hev; rewrite mem_cat; apply/orP; left; apply/flattenP; eexists; last exact: hv.
  exact: mem_head.
move=> tb v [<-|[]] // hv; apply: hev; rewrite mem_cat; apply/orP; right; apply/flattenP; eexists; last exact: hv.
exact: mem_head.
Qed.
Print Assumptions C27_agreement.
