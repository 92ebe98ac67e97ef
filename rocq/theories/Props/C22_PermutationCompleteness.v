(** C22: the permutation argument is complete. *)
From mathcomp Require Import all_ssreflect all_algebra.
From Verif.Model Require Import Base OrderedMap Domain PlonkVariable PlonkTable CycleRepresentation PermutationArgument.
From Verif.Spec Require Import CopySpec.
From Verif.Proofs Require Import NatTac FieldTac DomainProofs MapProofs KzgProofs PermArgProofs.
From Verif.Props Require Import C21_CopyCycles C24_PermutationAgreement.
Set Implicit Arguments.
Unset Strict Implicit.
Unset Printing Implicit Defensive.
Import GRing.Theory.
Local Open Scope ring_scope.

Section Sum.
Variables (F : fieldType) (omega : F) (rows : nat).
Hypothesis prim : rows.-primitive_root omega.
Notation dfs := (dfs_of_values omega rows).
Add Field Ff_c22 : (@ffield_theory F).

Lemma ring_step (l h p pr g q : F) : h != 0 -> l * (h * p) = pr * (g * q) -> l * p = pr * g * h^-1 * q.
Proof. by move=> hh e; apply: (mulfI hh); rewrite mulrCA e; move/eqP: hh => hh; ffield F. Qed.
Lemma size_perm_part u gs hs (p : seq F) v : v \in perm_parts omega u gs hs p -> size v = size p.
Proof.
elim: gs hs p => [|g gs ih] [|h hs] //= p; rewrite inE => /orP[/eqP->|/ih->]; by rewrite size_map size_iota.
Qed.
Lemma perm_sum_some alphas gs hs (parts : seq {poly F}) prev last : size gs = (size alphas).+1 -> size hs = (size alphas).+1 ->
  size parts = size alphas -> exists s, perm_sum alphas gs hs parts prev last = Some s.
Proof.
elim: alphas gs hs parts prev => [|a alphas ih] [|g gs] [|h hs] //= [|c parts] //= prev; first by eexists.
by move=> [h1] [h2] [h3]; have [s ->] := ih _ _ _ c h1 h2 h3; eexists.
Qed.
(** The telescoping sum vanishes on a usable row when the last product does what it should. *)
Lemma perm_sum_zero alphas gs hs u vp prev last j s : (j < u)%N -> (u <= rows)%N ->
  size gs = (size alphas).+1 -> size hs = (size alphas).+1 -> size vp = rows ->
  prev.[omega ^+ j] = nth 0 vp j ->
  (forall h, h \in hs -> h.[omega ^+ j] != 0) ->
  last.[omega ^+ j] * \prod_(h <- hs) h.[omega ^+ j] = prev.[omega ^+ j] * \prod_(g <- gs) g.[omega ^+ j] ->
  perm_sum alphas gs hs [seq dfs v | v <- perm_parts omega u (take (size alphas) gs) (take (size alphas) hs) vp] prev last = Some s ->
  s.[omega ^+ j] = 0.
Proof.
move=> hj hu; elim: alphas gs hs vp prev s => [|a alphas ih] [|g gs] [|h hs] //= vp prev s [h1] [h2] hsz hprev hnz.
  move/size0nil: h1 => ->; move/size0nil: h2 => ->; rewrite !big_seq1 => e [<-].
  by rewrite hornerD hornerN !hornerM e subrr.
rewrite !big_cons => e; set cur := [seq (if _ then _ else _) | j0 <- _].
case es : (perm_sum _ _ _ _ _ _) => [r|] //= -[<-].
have hjr : (j < rows)%N by slia.
have hh : h.[omega ^+ j] != 0 by apply: hnz; rewrite mem_head.
have hcur : nth 0 cur j = nth 0 vp j * g.[omega ^+ j] * (h.[omega ^+ j])^-1.
  by rewrite (nth_map 0%N) ?size_iota ?hsz // nth_iota ?hsz // add0n hj.
have hc : (dfs cur).[omega ^+ j] = nth 0 cur j by rewrite dfs_at.
have hs0 : size cur = rows by rewrite size_map size_iota.
rewrite hornerD (ih gs hs cur (dfs cur) r) //.
- rewrite hornerZ hornerD hornerN !hornerM hc hcur hprev addr0; apply/eqP; rewrite mulf_eq0 subr_eq0; apply/orP; right.
  by rewrite (divfK hh).
- by move=> h' hh'; apply: hnz; rewrite inE hh' orbT.
by rewrite hc hcur -hprev; exact: ring_step hh e.
Qed.
End Sum.

Section C22.
Variables (F : fieldType) (omega : F) (d : table_description) (T : Type) (challenge : T -> F * T).
Notation rows := (td_rows d).
Hypothesis prim : rows.-primitive_root omega.
Notation dfs := (dfs_of_values omega rows).

(** The label of a cell: [delta^i * omega^j] for row [j] of the [i]-th permuted column. *)
Definition label (columns : seq nat) (delta : F) (x : cell) : F := delta ^+ (index x.1 columns) * omega ^+ x.2.
(** The polynomial of a column of a table. *)
Definition column (val : cell -> F) (i : nat) : {poly F} := dfs [seq val (i, j) | j <- iota 0 rows].
(** The data that the preprocessor prepares for the permutation argument. *)
Definition preprocessed (columns : seq nat) (delta : F) (usable max_quotient_chunks parts : nat) (S_sigma : seq {poly F}) : perm_data F :=
  PermData (identity_polynomials omega rows (size columns) delta) S_sigma (lagrange_polynomial omega rows usable)
    (selector_blind omega rows usable) (lagrange_polynomial omega rows 0) max_quotient_chunks parts usable.

Lemma column_at val i j : (j < rows)%N -> (column val i).[omega ^+ j] = val (i, j).
Proof. by move=> h; rewrite dfs_at // (nth_map 0%N) ?size_iota // nth_iota. Qed.

Lemma factors_row (columns : seq nat) (S : nat -> {poly F}) (l : cell -> F) val beta gamma j : (j < rows)%N ->
  (forall i, i \in columns -> (S i).[omega ^+ j] = l (i, j)) ->
  [seq g.[omega ^+ j] | g <- perm_factors [seq S i | i <- columns] [seq column val i | i <- columns] beta gamma] =
  [seq beta * l (i, j) + gamma + val (i, j) | i <- columns].
Proof.
move=> hj h; rewrite /perm_factors; elim: columns h => //= i cols ih h; congr (_ :: _).
  by rewrite !hornerD hornerZ hornerC h ?mem_head // column_at.
by apply: ih => i' hi'; apply: h; rewrite inE hi' orbT.
Qed.

Section Run.
Variables (ccs : seq copy_constraint) (cr : cycles [eqType of cell]) (columns : seq nat) (delta : F).
Hypotheses (wf : well_formed d ccs) (hcr : cycle_representation d ccs = Some cr) (hu : uniq columns)
  (hcols : forall i, i \in columns -> (i < td_witness d + td_public_input d + td_constant d)%N).
Notation lab := (label columns delta).
Let sg (x : cell) : cell := odflt x (next cr x).

Lemma sgE x : x.1 \in columns -> (x.2 < rows)%N -> next cr x = Some (sg x).
Proof.
move=> h1 h2; have [c []] := C21_bijection wf; rewrite hcr => -[<-] [dom _ _ _].
rewrite /sg; case e : (next cr x) => [y|] //=; exfalso; move: (dom x); rewrite e => -[_ h]; apply: h => //.
by left; rewrite /in_table h2 andbT; exact: hcols.
Qed.
Lemma permutation_polynomialsE : permutation_polynomials omega rows columns delta cr =
  Some [seq dfs [seq lab (sg (i, j)) | j <- iota 0 rows] | i <- columns].
Proof.
rewrite /permutation_polynomials; apply: omapM_some => i hi.
rewrite /permutation_values (omapM_some (g := fun j => lab (sg (i, j)))) // => j; rewrite mem_iota add0n => hj.
have := @sgE (i, j) hi hj; rewrite /next => -> /=; by [].
Qed.

Lemma map_index_iota (A : Type) (f : nat -> A) : [seq f (index i columns) | i <- columns] = [seq f k | k <- iota 0 (size columns)].
Proof.
rewrite -[RHS](@eq_map _ _ f) // [LHS](map_comp f (index^~ columns)); congr map.
apply: (@eq_from_nth _ 0%N); first by rewrite size_map size_iota.
by move=> k; rewrite size_map => hk; rewrite (nth_map 0%N) // nth_iota // add0n index_uniq.
Qed.
Lemma identity_polynomialsE : identity_polynomials omega rows (size columns) delta =
  [seq dfs (identity_values omega rows delta (index i columns)) | i <- columns].
Proof. by rewrite (map_index_iota (fun k => dfs (identity_values omega rows delta k))). Qed.


Lemma sg_closed (usable : nat) : (usable < rows)%N ->
  (forall x y, constrained d ccs x y -> [/\ x.1 \in columns, y.1 \in columns, (x.2 < usable)%N & (y.2 < usable)%N]) ->
  let L := [seq (i, j) | j <- iota 0 usable, i <- columns] in perm_eq [seq sg x | x <- L] L.
Proof.
move=> hus hin; set L := [seq _ | _ <- _, _ <- _]; cbv zeta; rewrite -/L.
have memL x : (x \in L) = (x.1 \in columns) && (x.2 < usable)%N.
  apply/allpairsP/andP => [[[j i] [/= h1 h2 ->]]|[h1 h2]]; first by move: h1; rewrite mem_iota.
  by exists (x.2, x.1); rewrite mem_iota; case: x h1 h2.
have uL : uniq L by apply: allpairs_uniq; rewrite ?iota_uniq // => -[a b] [a' b'] _ _ [-> ->].
have [c []] := C21_bijection wf; rewrite hcr => -[<-] [dom inj _ _].
have cyc := C21_cycles wf hcr.
have nx x : x \in L -> next cr x = Some (sg x).
  by rewrite memL => /andP[h1 h2]; apply: sgE => //; apply: ltn_trans hus.
have mem_linked x y : linked (constrained d ccs) x y -> (x \in L) = (y \in L).
  by elim=> {x y} [x y /hin[h1 h2 h3 h4]|//|x y _ ->//|x y z _ -> _ ->//]; rewrite !memL h1 h2 h3 h4.
apply: uniq_perm => //.
  rewrite map_inj_in_uniq // => x y hx hy e.
  by apply: (inj x y (sg y)); [rewrite nx // e|rewrite nx].
have sub : {subset [seq sg x | x <- L] <= L}.
  move=> _ /mapP[x hx ->]; rewrite -(mem_linked x) //; apply/cyc; first by rewrite nx.
  by exists 1%N; rewrite /= nx.
have um : uniq [seq sg x | x <- L].
  rewrite map_inj_in_uniq // => x y hx hy e.
  by apply: (inj x y (sg y)); [rewrite nx // e|rewrite nx].
by have [] := uniq_min_size um sub; rewrite ?size_map // => _.
Qed.
End Run.

(** For every description, copy constraints on non-selector columns within the usable rows, table that satisfies them,
    order of the permuted columns, transcript and number of parts: if no denominator vanishes, the prover succeeds, the
    grand product is one at the last usable row, and the three constraint polynomials vanish on every row. *)
Theorem C22_complete ccs cr (columns : seq nat) (delta : F) (val : cell -> F) usable max_quotient_chunks parts tr :
  well_formed d ccs -> cycle_representation d ccs = Some cr ->
  uniq columns -> columns != [::] ->
  (forall i, i \in columns -> (i < td_witness d + td_public_input d + td_constant d)%N) ->
  (usable < rows)%N ->
  (forall x y, constrained d ccs x y -> [/\ x.1 \in columns, y.1 \in columns, (x.2 < usable)%N & (y.2 < usable)%N]) ->
  (forall x y, constrained d ccs x y -> val x = val y) ->
  permutation_partitions_num (size columns) max_quotient_chunks = Some parts ->
  let beta := (challenge tr).1 in let gamma := (challenge (challenge tr).2).1 in
  (forall x y, x.1 \in columns -> (x.2 < usable)%N -> next cr x = Some y -> beta * label columns delta y + gamma + val x != 0) ->
  exists S_sigma Fs V_P ps tr', [/\ permutation_polynomials omega rows columns delta cr = Some S_sigma,
    perm_prove_eval omega rows challenge (preprocessed columns delta usable max_quotient_chunks parts S_sigma)
      [seq column val i | i <- columns] tr = Some (Fs, V_P :: ps, tr'),
    size Fs = 3%N /\ size ps = (parts - 1)%N,
    V_P.[omega ^+ usable] = 1 &
    forall f j, f \in Fs -> (j < rows)%N -> f.[omega ^+ j] = 0].
Proof.
move=> wf hcr hu hne hcols hus hin hval hparts beta gamma hden.
have -> := permutation_polynomialsE delta wf hcr hcols.
set sg := (fun x : cell => odflt x (next cr x)).
have hsg x : x.1 \in columns -> (x.2 < rows)%N -> next cr x = Some (sg x) by exact: sgE wf hcr hcols x.
set S_sigma := [seq _ | i <- columns]; exists S_sigma.
have hvs x : x.1 \in columns -> (x.2 < usable)%N -> val (sg x) = val x.
  move=> h1 h2; apply/esym; apply: (C21_invariant val wf hcr).2 => //; apply: hsg => //; exact: ltn_trans hus.
rewrite /perm_prove_eval -/beta; case e1 : (challenge tr) @beta @gamma hden => [beta tr1] /=.
case e2 : (challenge tr1) => [gamma tr2] /= hden.
rewrite !size_map size_iota eqxx /=.
set cols := [seq column val i | i <- columns].
set g_v := perm_factors (identity_polynomials _ _ _ _) _ _ _; set h_v := perm_factors S_sigma _ _ _.
pose gf (x : cell) := beta * label columns delta x + gamma + val x.
pose hf (x : cell) := beta * label columns delta (sg x) + gamma + val x.
have hg j : (j < rows)%N -> [seq g.[omega ^+ j] | g <- g_v] = [seq gf (i, j) | i <- columns].
  move=> hj; rewrite /g_v identity_polynomialsE //; apply: (factors_row (l := label columns delta)) => // i hi.
  exact: identity_at.
have hh j : (j < rows)%N -> [seq h.[omega ^+ j] | h <- h_v] = [seq hf (i, j) | i <- columns].
  move=> hj; rewrite /h_v; apply: (factors_row (l := fun x => label columns delta (sg x))) => // i hi.
  by rewrite dfs_at // (nth_map 0%N) ?size_iota // nth_iota.
have hhg x : x.1 \in columns -> (x.2 < usable)%N -> hf x = gf (sg x) by move=> h1 h2; rewrite /hf /gf hvs.
have hnz j i : (j < usable)%N -> i \in columns -> hf (i, j) != 0.
  by move=> hj hi; apply: hden => //; apply: hsg => //; exact: ltn_trans hus.
pose L := [seq (i, j) | j <- iota 0 usable, i <- columns].
have prodL (f : cell -> F) : \prod_(j <- iota 0 usable) \prod_(i <- columns) f (i, j) = \prod_(x <- L) f x.
  by rewrite /L big_allpairs_dep.
have prodE (ps : seq {poly F}) (f : cell -> F) : (forall j, (j < rows)%N -> [seq p.[omega ^+ j] | p <- ps] = [seq f (i, j) | i <- columns]) ->
    \prod_(j <- iota 0 usable) \prod_(p <- ps) p.[omega ^+ j] = \prod_(x <- L) f x.
  move=> h; rewrite -prodL big_seq [RHS]big_seq; apply: eq_bigr => j; rewrite mem_iota add0n /= => hj.
  have hjr := ltn_trans hj hus.
  by rewrite -(big_map (fun p : {poly F} => p.[omega ^+ j]) xpredT id) h // big_map.
have closes : nth 0 (V_P_values omega rows g_v h_v) usable = 1.
  rewrite V_P_prod // (prodE _ _ hg) (prodE _ _ hh).
  have pb (f : cell -> F) : \prod_(x <- L) f (sg x) = \prod_(x <- L) f x.
    rewrite -(big_map sg xpredT f); apply: perm_big.
    by have := sg_closed wf hcr hu hcols hus hin; rewrite -/sg -/L.
  have hL : \prod_(x <- L) hf x = \prod_(x <- L) gf x.
    rewrite -[RHS]pb big_seq [RHS]big_seq; apply: eq_bigr => x.
    by case/allpairsP=> -[j i] [/= hj hi ->]; apply: hhg => //; move: hj; rewrite mem_iota.
  rewrite hL; apply: divff; rewrite -hL prodf_seq_neq0.
  by apply/allP => x /allpairsP[[j i] [/= hj hi ->]]; apply: hnz => //; move: hj; rewrite mem_iota.
set vp := V_P_values _ _ _ _ in closes *.
have svp : size vp = rows by exact: size_V_P prim _ _.
have vpS j : (j < usable)%N -> nth 0 vp j.+1 * \prod_(h <- h_v) h.[omega ^+ j] = nth 0 vp j * \prod_(g <- g_v) g.[omega ^+ j].
  move=> hj; rewrite nth_V_P ?divfK //; last exact: leq_ltn_trans hj hus.
  have hjr := ltn_trans hj hus.
  rewrite -(big_map (fun p : {poly F} => p.[omega ^+ j]) xpredT id) hh // big_map prodf_seq_neq0.
  by apply/allP => i hi; exact: hnz.
have r0 : (0 < rows)%N by exact: prim_order_gt0 prim.
have sg_v : size g_v = size columns by rewrite size_factors !size_map ?size_iota.
have sh_v : size h_v = size columns by rewrite size_factors !size_map.
have m1 : max_quotient_chunks != 1%N.
  by move: hparts; rewrite /permutation_partitions_num size_eq0 (negbTE hne); case: eqP => [->//|_]; case: eqP.
have sgs : size (chunk_products max_quotient_chunks g_v) = parts by apply: size_chunks; rewrite sg_v.
have shs : size (chunk_products max_quotient_chunks h_v) = parts by apply: size_chunks; rewrite sh_v.
rewrite sgs eqxx.
have hp0 : parts != 0%N.
  move: hparts; rewrite /permutation_partitions_num size_eq0 (negbTE hne); case: eqP => [_ [<-]//|/eqP hm0].
  case: ifP => // _; case: ifP => [/eqP h [<-]|_ [<-]]; last by rewrite addn1.
  have hm : (0 < max_quotient_chunks - 1)%N by move: m1 hm0; case: (max_quotient_chunks) => [|[|]].
  rewrite -lt0n divn_gt0 // dvdn_leq //; last by apply/eqP.
  by rewrite lt0n size_eq0.
rewrite hp0.
have V0 : (dfs vp).[omega ^+ 0] = 1 by rewrite dfs_at.
have Vj j : (j < rows)%N -> (dfs vp).[omega ^+ j] = nth 0 vp j by exact: dfs_at.
have shiftj j : (j < usable)%N -> (polynomial_shift omega (dfs vp) 1).[omega ^+ j] = nth 0 vp j.+1.
  by move=> hj; rewrite shift1_at -exprS Vj //; exact: leq_ltn_trans hj hus.
have F0z j : (j < rows)%N -> ((1 - dfs vp) * lagrange_polynomial omega rows 0).[omega ^+ j] = 0.
  move=> hj; rewrite hornerM lagrange_at_dom // hornerD hornerN horner_1.
  by case: eqP => [->|_]; rewrite ?mulr0 // V0 subrr mul0r.
have F2z j : (j < rows)%N -> ((dfs vp - 1) * dfs vp * lagrange_polynomial omega rows usable).[omega ^+ j] = 0.
  move=> hj; rewrite !hornerM lagrange_at_dom // hornerD hornerN horner_1.
  by case: eqP => [->|_]; rewrite ?mulr0 // Vj // closes subrr !mul0r.
have masked j : (usable <= j)%N -> (j < rows)%N ->
    (lagrange_polynomial omega rows usable).[omega ^+ j] + (selector_blind omega rows usable).[omega ^+ j] = 1.
  move=> h hj; rewrite lagrange_at_dom // blind_at_dom //; move: h; rewrite leq_eqVlt => /orP[/eqP<-|h].
    by rewrite eqxx ltnn addr0.
  by rewrite h (gtn_eqF h) add0r.
have chunk_at (ps : seq {poly F}) j : \prod_(p <- chunk_products max_quotient_chunks ps) p.[omega ^+ j] = \prod_(p <- ps) p.[omega ^+ j].
  by rewrite -(big_map (fun p : {poly F} => p.[omega ^+ j]) xpredT id) chunks_at chunk_prod // big_map.
have hVu : (dfs vp).[omega ^+ usable] = 1 by rewrite Vj.
have := size_draw challenge (parts - 1) tr2; case: (draw _ _ _) => alphas tr3 /= hal.
case: ifP => [/eqP hp1|hp1].
  move: sgs shs (chunk_at g_v) (chunk_at h_v); rewrite hp1.
  case: (chunk_products _ g_v) => [|g [|]] //= _; case: (chunk_products _ h_v) => [|h [|]] //= _ cg ch.
  do 4 eexists; split=> //.
  move=> f j; rewrite !inE => /or3P[/eqP->|/eqP->|/eqP->] hj; [exact: F0z| |exact: F2z].
  rewrite hornerM !hornerD !hornerN horner_1 !hornerM; case: (ltnP j usable) => hju.
    rewrite shiftj // Vj //; have := vpS j hju; rewrite -cg -ch !big_seq1 => ->; by rewrite subrr mulr0.
  by rewrite -addrA -opprD masked // subrr mul0r.
set ps := [seq dfs v | v <- _].
have sps : size ps = size alphas.
  have hlt : (parts - 1 <= parts)%N by rewrite leq_subr.
  by rewrite size_map size_perm_parts ?size_takel ?shs ?sgs ?hal.
have hpa : parts = (size alphas).+1 by rewrite hal; move: hp0; case: (parts) => // n _; rewrite subn1.
have [s es] : exists s, perm_sum alphas (chunk_products max_quotient_chunks g_v) (chunk_products max_quotient_chunks h_v) ps (dfs vp)
  (polynomial_shift omega (dfs vp) 1) = Some s by apply: perm_sum_some; rewrite ?sgs ?shs.
rewrite es /=; do 4 eexists; split=> //; first by rewrite sps hal.
move=> f j; rewrite !inE => /or3P[/eqP->|/eqP->|/eqP->] hj; [exact: F0z| |exact: F2z].
rewrite hornerM !hornerD hornerN horner_1; case: (ltnP j usable) => hju; last by rewrite masked // subrr mulr0.
suff -> : s.[omega ^+ j] = 0 by rewrite mul0r.
move: es; rewrite /ps -hal => es.
apply: (perm_sum_zero prim hju (ltnW hus) _ _ svp _ _ _ es); rewrite ?sgs ?shs //; first exact: Vj.
- move=> h hh'; have : \prod_(p <- h_v) p.[omega ^+ j] != 0.
    rewrite -(big_map (fun p : {poly F} => p.[omega ^+ j]) xpredT id) hh // big_map prodf_seq_neq0.
    by apply/allP => i hi; exact: hnz.
  by rewrite -chunk_at prodf_seq_neq0 => /allP/(_ _ hh').
by rewrite !chunk_at shiftj // Vj // vpS.
Qed.
End C22.
Print Assumptions C22_complete.

(** Four rows over F_17, two of them usable; the constraint (0,0) = (1,1) on two witness columns, in two parts. *)
Example C22_witness : let F := [fieldType of 'F_17] in let omega : F := 4%:R in let delta : F := 3%:R in
  let d := TableDescription 2 0 0 0 2 4 in
  let v i r := PlonkVariable i (Posz r) false CWitness in
  let ccs := [:: CopyConstraint (v 0%N 0%N) (v 1%N 1%N)] in
  let val (x : cell) : F := nth 0 (nth [::] [:: [:: 5%:R; 6%:R]; [:: 7%:R; 5%:R]] x.1) x.2 in
  let challenge (n : nat) : F * nat := (n%:R, n.+1) in
  exists cr, [/\ 4.-primitive_root omega /\ well_formed d ccs, cycle_representation d ccs = Some cr,
    forall x y, constrained d ccs x y -> [/\ x.1 \in [:: 0%N; 1%N], y.1 \in [:: 0%N; 1%N], (x.2 < 2)%N & (y.2 < 2)%N],
    forall x y, constrained d ccs x y -> val x = val y &
    permutation_partitions_num 2 2 = Some 2%N /\
    forall x y, x.1 \in [:: 0%N; 1%N] -> (x.2 < 2)%N -> next cr x = Some y ->
      (challenge 3%N).1 * label omega [:: 0%N; 1%N] delta y + (challenge 4%N).1 + val x != 0].
Proof.
move=> F omega delta d v ccs val challenge; eexists; split.
- split; last by move=> [|[]] // cc [<-]; split; [exists (0%N, 0%N)|exists (1%N, 1%N)].
  apply/andP; split=> //; apply/forallP => -[i hi]; rewrite unity_rootE /=.
  by do 4 (case: i hi => [|i] hi; first vm_decide).
- by vm_compute; reflexivity.
- by move=> [a b] [a' b'] [i [cc]]; case: i => [|[|i]] //= [<-] [[/= [<-] ->] [/= [<-] ->]].
- by move=> [a b] [a' b'] [i [cc]]; case: i => [|[|i]] //= [<-] [[/= [<-] ->] [/= [<-] ->]].
split=> // -[a b] y /=; rewrite !inE => /orP[/eqP->|/eqP->]; case: b => [|[|]] // _ [<-]; vm_decide.
Qed.
