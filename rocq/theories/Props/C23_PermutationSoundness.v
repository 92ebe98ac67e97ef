(** C23: the permutation argument is sound. *)
From mathcomp Require Import all_ssreflect all_algebra.
From Verif.Model Require Import Base OrderedMap Domain PlonkVariable PlonkTable CycleRepresentation PermutationArgument.
From Verif.Spec Require Import CopySpec.
From Verif.Proofs Require Import NatTac FieldTac DomainProofs MapProofs KzgProofs PermArgProofs.
From Verif.Props Require Import C21_CopyCycles C24_PermutationAgreement C22_PermutationCompleteness.
Set Implicit Arguments.
Unset Strict Implicit.
Unset Printing Implicit Defensive.
Import GRing.Theory.
Local Open Scope ring_scope.

(** A transcript that returns the given challenges one after the other. *)
Definition given (F : fieldType) (tr : seq F) : F * seq F := (head 0 tr, behead tr).

Section Sums.
Variable F : fieldType.
Add Field Ff_c23 : (@ffield_theory F).
Lemma forge_step (g0 g1 h0 h1 a m : F) : g1 != a * h0 ->
  (a * (g0 - (h1 - a * g0) / (g1 - a * h0) * h0) + ((h1 - a * g0) / (g1 - a * h0) * g1 - h1)) * m = 0.
Proof.
move=> nz; have /eqP hd : g1 - a * h0 != 0 by rewrite subr_eq0.
by ffield F.
Qed.
Implicit Types (gs hs parts alphas : seq F).

Lemma draw_given n alphas : size alphas = n -> draw (@given F) n alphas = (alphas, [::]).
Proof. by elim: n alphas => [|n ih] [|a alphas] //= [/ih->]. Qed.
Lemma two_points (a b x y : F) : a != b -> a * x + y = 0 -> b * x + y = 0 -> x = 0 /\ y = 0.
Proof.
move=> ab h1 h2; have : (a - b) * x = 0 by rewrite mulrBl -[a * x](addrK y) h1 -[b * x](addrK y) h2 subrr.
by move/eqP; rewrite mulf_eq0 subr_eq0 (negbTE ab) /= => /eqP x0; move: h1; rewrite x0 mulr0 add0r.
Qed.
Lemma vsum_some alphas gs hs parts prev last : size gs = (size alphas).+1 -> size hs = (size alphas).+1 ->
  size parts = size alphas -> exists s, perm_vsum alphas gs hs parts prev last = Some s.
Proof.
elim: alphas gs hs parts prev => [|a alphas ih] [|g gs] [|h hs] //= [|c parts] //= prev; first by eexists.
by move=> [h1] [h2] [h3]; have [s ->] := ih _ _ _ c h1 h2 h3; eexists.
Qed.
(** A sum that vanishes for all challenges of a set of two elements telescopes. *)
Lemma vsum_telescopes k a b gs hs parts prev last : a != b ->
  size gs = k.+1 -> size hs = k.+1 -> size parts = k ->
  (forall alphas, size alphas = k -> {subset alphas <= [:: a; b]} -> perm_vsum alphas gs hs parts prev last = Some 0) ->
  last * \prod_(h <- hs) h = prev * \prod_(g <- gs) g.
Proof.
move=> ab; elim: k gs hs parts prev => [|k ih] [|g gs] [|h hs] //= parts prev.
  move=> [/size0nil->] [/size0nil->] /size0nil-> /(_ [::] erefl) /= h0; rewrite !big_seq1; apply/eqP; rewrite eq_sym -subr_eq0.
  by have e : {subset [::] <= [:: a; b]} by []; have [->] := h0 e.
case: parts => // c parts [h1] [h2] [h3] hz; rewrite !big_cons.
have D alphas : size alphas = k -> {subset alphas <= [:: a; b]} ->
    prev * g - c * h = 0 /\ perm_vsum alphas gs hs parts c last = Some 0.
  move=> sz sub; have [||| s es] := @vsum_some alphas gs hs parts c last; rewrite ?sz //.
  have sub' x : x \in [:: a; b] -> {subset x :: alphas <= [:: a; b]}.
    by move=> hx y; rewrite inE => /orP[/eqP->//|/sub].
  have := hz (a :: alphas); have := hz (b :: alphas); rewrite /= sz es /=.
  move=> /(_ erefl) hb /(_ erefl) ha.
  have [eb] := hb (sub' b (mem_last a [:: b])); have [ea] := ha (sub' a (mem_head a _)).
  by have [-> ->] := two_points ab ea eb.
have sub0 : {subset nseq k a <= [:: a; b]} by move=> x; rewrite mem_nseq => /andP[_ /eqP->]; rewrite mem_head.
have [e _] := D (nseq k a) (size_nseq _ _) sub0.
have e' := ih gs hs parts c h1 h2 h3 (fun alphas sz sub => (D alphas sz sub).2).
by rewrite mulrCA e' mulrCA mulrA; move/eqP: e; rewrite subr_eq0 => /eqP<-; rewrite mulrA.
Qed.
End Sums.

Lemma partitions_pos n m p : permutation_partitions_num n m = Some p -> n != 0%N -> p = (p - 1).+1.
Proof.
rewrite /permutation_partitions_num => + n0; rewrite (negbTE n0); case: eqP => [_ [<-]//|/eqP m0].
case: ifP => // /negbT m1; case: ifP => [/eqP h [<-]|_ [<-]]; last by rewrite addnK addn1.
have hm : (0 < m - 1)%N by move: m1 m0; case: (m) => [|[|]].
suff : (0 < n %/ (m - 1))%N by case: (_ %/ _)%N => // k _; rewrite subn1.
by rewrite divn_gt0 // dvdn_leq ?lt0n //; apply/eqP.
Qed.

Section Polynomials.
Variables (F : fieldType) (K : eqType).

Lemma monic_sub_size (p q : {poly F}) n : p \is monic -> q \is monic -> size p = n.+1 -> size q = n.+1 -> (size (p - q)%R <= n)%N.
Proof.
move=> mp mq sp sq; apply/leq_sizeP => j; rewrite leq_eqVlt coefB => /orP[/eqP<-|hj].
  by move: mp mq; rewrite !monicE /lead_coef sp sq /= => /eqP-> /eqP->; rewrite subrr.
by rewrite !nth_default ?subrr // ?sp ?sq.
Qed.
Lemma roots_match (L : seq K) (a b : K -> F) (G : seq F) : uniq G -> (2 * size L <= size G)%N ->
  (forall c, c \in G -> \prod_(x <- L) (a x + c) = 0 \/ \prod_(x <- L) (a x + c) = \prod_(x <- L) (b x + c)) ->
  forall x, x \in L -> exists2 y, y \in L & b x = a y.
Proof.
move=> uG sG hG x hx.
pose P (f : K -> F) := \prod_(x <- L) ('X - (- f x)%:P).
have PE f c : (P f).[c] = \prod_(x <- L) (f x + c).
  by rewrite /P horner_prod; apply: eq_bigr => y _; rewrite hornerXsubC opprK addrC.
have mP f : P f \is monic by exact: monic_prod_XsubC.
have sP f : size (P f) = (size L).+1 by rewrite size_prod_XsubC.
have e : P a = P b.
  apply/eqP; rewrite -subr_eq0; apply: contraT => nz.
  have nz2 : P a * (P a - P b) != 0 by rewrite mulf_neq0 // monic_neq0.
  have : (size G < size (P a * (P a - P b))%R)%N.
    apply: max_poly_roots => //; apply/allP => c hc; rewrite rootE hornerM hornerD hornerN !PE.
    by case: (hG c hc) => ->; rewrite ?mul0r ?subrr ?mulr0.
  have h1 := size_mul_leq (P a) (P a - P b); have h2 := monic_sub_size (mP a) (mP b) (sP a) (sP b).
  move: h1 h2 sG; rewrite sP; move: (size _) (size (P a - P b)) (size L) (size G) => p q l g; slia.
have : root (P b) (- b x).
  rewrite /P -(big_map (fun x => - b x) xpredT (fun c => 'X - c%:P)) root_prod_XsubC; exact: map_f.
rewrite -e /P -(big_map (fun x => - a x) xpredT (fun c => 'X - c%:P)) root_prod_XsubC => /mapP[y hy /oppr_inj hxy].
by exists y.
Qed.
(** More challenges than cells: two of them select the same cell. *)
Lemma pigeon (L : seq K) (B : seq F) (f : F -> K) : uniq B -> (size L < size B)%N -> (forall b, b \in B -> f b \in L) ->
  exists b b', [/\ b \in B, b' \in B, b != b' & f b = f b'].
Proof.
move=> uB sB hf; have : ~~ uniq [seq f b | b <- B].
  apply/negP => um; have sub : {subset [seq f b | b <- B] <= L} by move=> _ /mapP[b hb ->]; exact: hf.
  by have := leq_ltn_trans (uniq_leq_size um sub) sB; rewrite size_map ltnn.
elim: B uB {sB hf} => //= b B ih /andP[hb uB]; rewrite negb_and negbK => /orP[/mapP[b' hb' e]|/(ih uB)[b1 [b2 [h1 h2 h3 h4]]]].
  exists b, b'; split=> //; rewrite ?inE ?eqxx ?hb' ?orbT //.
  by apply: contraNneq hb => ->.
by exists b1, b2; rewrite !inE h1 h2 !orbT.
Qed.
Lemma lines_meet_once (b b' l l' v v' : F) : b != b' -> b * l + v = b * l' + v' -> b' * l + v = b' * l' + v' -> l = l' /\ v = v'.
Proof.
move=> ne h1 h2; have [||] := @two_points F b b' (l - l') (v - v') ne.
- by rewrite mulrBr addrACA -opprD h1 subrr.
- by rewrite mulrBr addrACA -opprD h2 subrr.
by move=> /eqP; rewrite subr_eq0 => /eqP-> /eqP; rewrite subr_eq0 => /eqP->.
Qed.
End Polynomials.

Section C23.
Variables (F : fieldType) (omega : F) (d : table_description).
Notation rows := (td_rows d).
Hypothesis prim : rows.-primitive_root omega.

(** On every row, the verifier computes three zeros from the values of the given polynomials. *)
Definition accepts_rows (pd : perm_data F) (cols : seq {poly F}) (beta gamma : F) (alphas : seq F) (V_P : {poly F}) (parts : seq {poly F}) : Prop :=
  forall j, (j < rows)%N -> let y := omega ^+ j in
    perm_verify_eval (@given F) (pd_max_quotient_chunks pd) (pd_permutation_parts pd) (pd_lagrange_0 pd)
      [seq s.[y] | s <- pd_S_id pd] [seq s.[y] | s <- pd_S_sigma pd] (pd_q_last pd).[y] (pd_q_blind pd).[y] y
      [seq c.[y] | c <- cols] V_P.[y] V_P.[omega * y] [seq p.[y] | p <- parts] (beta :: gamma :: alphas) = Some ([:: 0; 0; 0], [::]).

(** If for more values of [beta] than there are cells, and for each of them at least twice as many values of [gamma] as
    there are cells, there are a grand product and intermediate products (for several parts: good for all challenges of
    a set of two elements) that pass on every row, then the table satisfies every copy constraint. *)
Theorem C23_sound ccs cr (columns : seq nat) (delta : F) (cols : seq {poly F}) usable max_quotient_chunks parts S_sigma
  (B : seq F) (G : F -> seq F) (a1 a2 : F) :
  well_formed d ccs -> cycle_representation d ccs = Some cr ->
  uniq columns -> columns != [::] -> size cols = size columns ->
  (forall i, i \in columns -> (i < td_witness d + td_public_input d + td_constant d)%N) ->
  (usable < rows)%N ->
  (forall x y, constrained d ccs x y -> [/\ x.1 \in columns, y.1 \in columns, (x.2 < usable)%N & (y.2 < usable)%N]) ->
  {in [pred x | (x.1 \in columns) && (x.2 < usable)%N] &, injective (label omega columns delta)} ->
  permutation_partitions_num (size columns) max_quotient_chunks = Some parts ->
  permutation_polynomials omega rows columns delta cr = Some S_sigma ->
  let pd := preprocessed omega d columns delta usable max_quotient_chunks parts S_sigma in
  uniq B -> (size columns * usable < size B)%N -> a1 != a2 ->
  (forall beta, beta \in B -> uniq (G beta) /\ (2 * (size columns * usable) <= size (G beta))%N) ->
  (forall beta gamma, beta \in B -> gamma \in G beta -> exists V_P ps, size ps = (parts - 1)%N /\
    forall alphas, size alphas = (parts - 1)%N -> {subset alphas <= [:: a1; a2]} -> accepts_rows pd cols beta gamma alphas V_P ps) ->
  forall x y, constrained d ccs x y -> (nth 0 cols (index x.1 columns)).[omega ^+ x.2] = (nth 0 cols (index y.1 columns)).[omega ^+ y.2].
Proof.
move=> wf hcr hu hne scols hcols hus hin hinj hparts; rewrite (permutation_polynomialsE omega delta wf hcr hcols) => -[<-] pd uB sB a12 hG hV.
pose sg (x : cell) := odflt x (next cr x).
have hsg x : x.1 \in columns -> (x.2 < rows)%N -> next cr x = Some (sg x) by exact: sgE wf hcr hcols x.
pose c i := nth 0 cols (index i columns).
have ecols : cols = [seq c i | i <- columns].
  apply: (@eq_from_nth _ 0); first by rewrite size_map.
  by move=> k; rewrite scols => hk; rewrite (nth_map 0%N) // /c index_uniq.
pose val (x : cell) := (c x.1).[omega ^+ x.2].
pose lab := label omega columns delta.
pose L := [seq (i, j) | j <- iota 0 usable, i <- columns].
have memL x : (x \in L) = (x.1 \in columns) && (x.2 < usable)%N.
  apply/allpairsP/andP => [[[j i] [/= h1 h2 ->]]|[h1 h2]]; first by move: h1; rewrite mem_iota.
  by exists (x.2, x.1); rewrite mem_iota; case: x h1 h2.
have sL : size L = (size columns * usable)%N by rewrite size_allpairs size_iota mulnC.
have prodL (f : cell -> F) : \prod_(j <- iota 0 usable) \prod_(i <- columns) f (i, j) = \prod_(x <- L) f x.
  by rewrite /L big_allpairs_dep.
have sgL x : x \in L -> sg x \in L.
  move=> hx; rewrite -(perm_mem (sg_closed wf hcr hu hcols hus hin)); exact: (map_f sg hx).
have m1 : max_quotient_chunks != 1%N.
  by move: hparts; rewrite /permutation_partitions_num size_eq0 (negbTE hne); case: eqP => [->//|_]; case: eqP.
have key beta gamma : beta \in B -> gamma \in G beta ->
  let g x := beta * lab x + val x in let h x := beta * lab (sg x) + val x in
  \prod_(x <- L) (g x + gamma) = 0 \/ \prod_(x <- L) (g x + gamma) = \prod_(x <- L) (h x + gamma).
  move=> hb hg g h; have [V_P [ps [sps hz]]] := hV _ _ hb hg.
  have row j : (j < rows)%N -> forall alphas, size alphas = (parts - 1)%N -> {subset alphas <= [:: a1; a2]} ->
      let gs := chunk_products max_quotient_chunks [seq g (i, j) + gamma | i <- columns] in
      let hs := chunk_products max_quotient_chunks [seq h (i, j) + gamma | i <- columns] in
      [/\ (j == 0%N)%:R * (1 - V_P.[omega ^+ j]) = 0, (j == usable)%:R * (V_P.[omega ^+ j] ^+ 2 - V_P.[omega ^+ j]) = 0 &
        (j < usable)%N -> if parts == 1%N then forall x y, vget gs 0 = Some x -> vget hs 0 = Some y -> y * V_P.[omega ^+ j.+1] - x * V_P.[omega ^+ j] = 0
          else perm_vsum alphas gs hs [seq p.[omega ^+ j] | p <- ps] V_P.[omega ^+ j] V_P.[omega ^+ j.+1] = Some 0].
    move=> hj alphas sal sub gs hs; have := hz alphas sal sub j hj.
    rewrite /perm_verify_eval /given /= -/(given (F := F)) !size_map size_iota scols eqxx /=.
    rewrite (draw_given sal) sal sps eqxx !vchunk_productsE lagrange_at_dom // lagrange_at_dom // blind_at_dom // -exprS.
    have eg : [seq sc.1 * beta + (sc.2 + gamma) | sc <- zip [seq s.[omega ^+ j] | s <- identity_polynomials omega rows (size columns) delta] [seq c0.[omega ^+ j] | c0 <- cols]] = [seq g (i, j) + gamma | i <- columns].
      rewrite identity_polynomialsE // ecols -!map_comp zip_map -map_comp; apply: eq_map => i /=.
      by rewrite identity_at // /g /val /lab /label /= mulrC addrA.
    have eh : [seq sc.1 * beta + (sc.2 + gamma) | sc <- zip [seq s.[omega ^+ j] | s <- [seq dfs_of_values omega rows [seq label omega columns delta (odflt (i, j) (next cr (i, j))) | j <- iota 0 rows] | i <- columns]] [seq c0.[omega ^+ j] | c0 <- cols]] = [seq h (i, j) + gamma | i <- columns].
      rewrite ecols -!map_comp zip_map -map_comp; apply: eq_map => i /=.
      by rewrite dfs_at // (nth_map 0%N) ?size_iota // nth_iota // /h /val /lab /= mulrC addrA.
    rewrite eg eh; case: ifP => // hp0; case: ifP => hp1.
      rewrite -/gs -/hs; case: (vget gs 0) => [x|] //=; case: (vget hs 0) => [y|] //= [e0 e1 e2]; split=> // hju x' y' [<-] [<-].
      by move: e1; rewrite (ltn_eqF hju) ltnNge (ltnW hju) /= !subr0 mulr1.
    rewrite -/gs -/hs; case es : (perm_vsum _ _ _ _ _ _) => [s|] //= [e0 e1 e2]; split=> // hju.
    move: e1; rewrite (ltn_eqF hju) ltnNge (ltnW hju) /= !add0r mulrN mulr1 => /eqP.
    by rewrite oppr_eq0 => /eqP->.
  have sub0 : {subset nseq (parts - 1) a1 <= [:: a1; a2]} by move=> x; rewrite mem_nseq => /andP[_ /eqP->]; rewrite mem_head.
  have step j : (j < usable)%N -> V_P.[omega ^+ j.+1] * \prod_(i <- columns) (h (i, j) + gamma) = V_P.[omega ^+ j] * \prod_(i <- columns) (g (i, j) + gamma).
    move=> hj; have hjr := ltn_trans hj hus.
    have pc (f : cell -> F) : \prod_(i <- columns) (f (i, j) + gamma) = \prod_(x <- chunk_products max_quotient_chunks [seq f (i, j) + gamma | i <- columns]) x.
      by rewrite chunk_prod // big_map.
    have sc (f : cell -> F) : size (chunk_products max_quotient_chunks [seq f (i, j) + gamma | i <- columns]) = parts.
      by apply: size_chunks; rewrite size_map.
    rewrite !pc; case: (eqVneq parts 1%N) => [e1|ne1].
      have [_ _ /(_ hj)] := row j hjr (nseq (parts - 1) a1) (size_nseq _ _) sub0; rewrite e1 eqxx.
      move: (sc g) (sc h); rewrite e1; case: (chunk_products _ _) => [|x [|]] //= _; case: (chunk_products _ _) => [|y [|]] //= _.
      move=> /(_ _ _ erefl erefl) /eqP; rewrite subr_eq0 !big_seq1 => /eqP e.
      by rewrite mulrC e mulrC.
    apply: (@vsum_telescopes F (parts - 1) a1 a2 _ _ [seq p.[omega ^+ j] | p <- ps]); rewrite ?size_map ?sc //.
    - by apply: partitions_pos hparts _; rewrite size_eq0.
    - by apply: partitions_pos hparts _; rewrite size_eq0.
    by move=> alphas sal sub; have [_ _ /(_ hj)] := row j hjr alphas sal sub; rewrite (negbTE ne1).
  have chain u : (u <= usable)%N ->
      V_P.[omega ^+ u] * \prod_(j <- iota 0 u) \prod_(i <- columns) (h (i, j) + gamma) = \prod_(j <- iota 0 u) \prod_(i <- columns) (g (i, j) + gamma).
    elim: u => [|u ih] hu'.
      rewrite !big_nil mulr1; have [e _ _] := row 0%N (leq_ltn_trans (leq0n _) hus) (nseq (parts - 1) a1) (size_nseq _ _) sub0.
      by move/eqP: e; rewrite eqxx mul1r subr_eq0 => /eqP<-.
    have -> : iota 0 u.+1 = iota 0 u ++ [:: u] by rewrite -addn1 iotaD.
    by rewrite !big_cat !big_seq1 /= mulrCA step // mulrCA mulrA ih // ltnW.
  have [_ e _] := row usable hus (nseq (parts - 1) a1) (size_nseq _ _) sub0.
  have := chain usable (leqnn _); rewrite (prodL (fun x => h x + gamma)) (prodL (fun x => g x + gamma)).
  move/eqP: e; rewrite eqxx mul1r -{2}[V_P.[_]]mulr1 expr2 -mulrBr mulf_eq0 subr_eq0 => /orP[/eqP->|/eqP->].
    by rewrite mul0r => <-; left.
  by rewrite mul1r => <-; right.
have inv x : x \in L -> val x = val (sg x).
  move=> hx.
  pose f beta := nth x L (find (fun y => beta * lab (sg x) + val x == beta * lab y + val y) L).
  have hf beta : beta \in B -> f beta \in L /\ beta * lab (sg x) + val x = beta * lab (f beta) + val (f beta).
    move=> hb; have [uG sG] := hG beta hb.
    have [|y hy e] := roots_match uG _ (fun gamma hg => key beta gamma hb hg) hx; first by rewrite sL.
    have hh : has (fun y => beta * lab (sg x) + val x == beta * lab y + val y) L by apply/hasP; exists y => //; apply/eqP.
    split; first by rewrite mem_nth // -has_find.
    by apply/eqP; exact: (nth_find x hh).
  have [|b [b' [hb hb' ne e]]] := pigeon uB _ (fun beta hb => (hf beta hb).1); first by rewrite sL.
  have [h1 e1] := hf b hb; have [_ e2] := hf b' hb'; rewrite -e in e2.
  have [el ev] := lines_meet_once ne e1 e2.
  rewrite ev; congr val; apply: hinj; rewrite ?inE -?memL //.
  exact: sgL.
have cyc := C21_cycles wf hcr.
have linkedL x y : linked (constrained d ccs) x y -> x = y \/ (x \in L /\ y \in L).
  elim=> {x y} [x y /hin[h1 h2 h3 h4]|x|x y _ [e|[h1 h2]]|x y z _ [e1|[h1 h2]] _ [e2|[h3 h4]]]; first by right; rewrite !memL h1 h2 h3 h4.
  - by left.
  - by left.
  - by right.
  - by left; rewrite e1.
  - by right; rewrite e1.
  - by right; rewrite -e2.
  by right.
have inv' x y : next cr x = Some y -> val x = val y.
  move=> h; have : linked (constrained d ccs) x y.
    by apply/cyc; [rewrite h|exists 1%N; rewrite /= h].
  case/linkedL => [->//|[hx _]]; rewrite inv //; move: (hx); rewrite memL => /andP[h1 h2].
  by have := hsg x h1 (ltn_trans h2 hus); rewrite h => -[->].
by apply: (C21_invariant val wf hcr).1.
Qed.

(** Finding: the challenges that combine the parts are drawn before the intermediate products are committed to, so that
    these can be chosen afterwards. With two permuted columns in two parts, the constant grand product 1 and a suitable
    intermediate product then pass on every row, for every table, every copy constraints and every challenges but the
    few for which a denominator vanishes. *)
Theorem C23_two_parts_forgeable ccs cr (i0 i1 : nat) (delta : F) (val : cell -> F) usable S_sigma (beta gamma alpha : F) :
  let columns := [:: i0; i1] in
  well_formed d ccs -> cycle_representation d ccs = Some cr -> i0 != i1 ->
  (forall i, i \in columns -> (i < td_witness d + td_public_input d + td_constant d)%N) ->
  (usable < rows)%N ->
  permutation_polynomials omega rows columns delta cr = Some S_sigma ->
  (forall j y, (j < usable)%N -> next cr (i0, j) = Some y ->
    beta * label omega columns delta (i1, j) + gamma + val (i1, j) != alpha * (beta * label omega columns delta y + gamma + val (i0, j))) ->
  permutation_partitions_num 2 2 = Some 2%N /\
  exists V_P ps, size ps = 1%N /\
    accepts_rows (preprocessed omega d columns delta usable 2 2 S_sigma) [seq column omega d val i | i <- columns] beta gamma [:: alpha] V_P ps.
Proof.
move=> columns wf hcr ne hcols hus; rewrite (permutation_polynomialsE omega delta wf hcr hcols) => -[<-] hd; split=> //.
have hu : uniq columns by rewrite /= inE ne.
pose sg (x : cell) := odflt x (next cr x).
have hsg x : x.1 \in columns -> (x.2 < rows)%N -> next cr x = Some (sg x) by exact: sgE wf hcr hcols x.
pose g i j := label omega columns delta (i, j) * beta + (val (i, j) + gamma).
pose h i j := label omega columns delta (sg (i, j)) * beta + (val (i, j) + gamma).
pose c := dfs_of_values omega rows [seq (h i1 j - alpha * g i0 j) * (g i1 j - alpha * h i0 j)^-1 | j <- iota 0 rows].
exists 1, [:: c]; split=> // j hj; rewrite /perm_verify_eval /given /= -/(given (F := F)).
have h0 : index i0 columns = 0%N by rewrite /= eqxx.
have h1 : index i1 columns = 1%N by rewrite /= (negbTE ne) eqxx.
rewrite !identity_at // !column_at // !dfs_at // !(nth_map 0%N) ?size_iota // !nth_iota // !add0n -/sg -/(sg (i0, j)) -/(sg (i1, j)).
have eg0 : delta ^+ 0 * omega ^+ j * beta + (val (i0, j) + gamma) = g i0 j by rewrite /g /label h0.
have eg1 : delta ^+ 1 * omega ^+ j * beta + (val (i1, j) + gamma) = g i1 j by rewrite /g /label h1.
rewrite eg0 eg1 -/(h i0 j) -/(h i1 j) !horner_1 !mul1r subrr expr1n subrr !mulr0; congr (Some ([:: _; _; _], _)).
case: (ltngtP j usable) => hju; rewrite ?add0r ?addr0 ?subrr ?mulr0 //.
have := hd j _ hju (hsg (i0, j) (mem_head _ _) hj).
have e1 : beta * label omega columns delta (i1, j) + gamma + val (i1, j) = g i1 j by rewrite /g mulrC -addrA [gamma + _]addrC.
have e2 : beta * label omega columns delta (sg (i0, j)) + gamma + val (i0, j) = h i0 j by rewrite /h mulrC -addrA [gamma + _]addrC.
rewrite e1 e2 => nz; exact: forge_step nz.
Qed.
End C23.
Print Assumptions C23_sound.

Print Assumptions C23_two_parts_forgeable.

Section Concrete.
Let F := [fieldType of 'F_17].
Let omega : F := 4%:R.
Let delta : F := 3%:R.
Let d := TableDescription 2 0 0 0 1 4.
Let v i r := PlonkVariable i (Posz r) false CWitness.
Let ccs := [:: CopyConstraint (v 0%N 0%N) (v 1%N 0%N)].
Let columns := [:: 0%N; 1%N].

Lemma concrete_prim : (td_rows d).-primitive_root omega.
Proof.
apply/andP; split=> //; apply/forallP => -[i hi]; rewrite unity_rootE /=.
by do 4 (case: i hi => [|i] hi; first vm_decide).
Qed.
Lemma concrete_wf : well_formed d ccs.
Proof. by move=> [|[]] // cc [<-]; split; [exists (0%N, 0%N)|exists (1%N, 0%N)]. Qed.
Lemma concrete_cr : exists cr, [/\ cycle_representation d ccs = Some cr, next cr (0%N, 0%N) = Some (1%N, 0%N) & next cr (1%N, 0%N) = Some (0%N, 0%N)].
Proof. by eexists; split; vm_compute; reflexivity. Qed.
Lemma concrete_in x y : constrained d ccs x y -> x = (0%N, 0%N) /\ y = (1%N, 0%N).
Proof. by case: x y => [a b] [a' b'] [i [cc]]; case: i => [|[|i]] //= [<-] [[/= [<-] ->] [/= [<-] ->]]. Qed.
Lemma concrete_constrained : constrained d ccs (0%N, 0%N) (1%N, 0%N).
Proof. by exists 0%N; exists (CopyConstraint (v 0%N 0%N) (v 1%N 0%N)). Qed.
Lemma concrete_inj : {in [pred x | (x.1 \in columns) && (x.2 < 1)%N] &, injective (label omega columns delta)}.
Proof.
move=> [i j] [i' j']; rewrite !inE /= !ltnS !leqn0 => /andP[hi /eqP->] /andP[hi' /eqP->].
by case/orP: hi => /eqP->; case/orP: hi' => /eqP-> //= /eqP; rewrite /label /=; move/eqP => h; exfalso; move/eqP: h; apply/negP; vm_decide.
Qed.

(** Hence, with two parts, a table that violates a copy constraint passes: for every [beta] and [gamma] (but one line of
    them) and for every [alpha] but one. *)
Theorem C23_parts_order_refuted : exists cr S_sigma (val : cell -> F),
  [/\ cycle_representation d ccs = Some cr, permutation_polynomials omega (td_rows d) columns delta cr = Some S_sigma,
      constrained d ccs (0%N, 0%N) (1%N, 0%N) /\ val (0%N, 0%N) != val (1%N, 0%N) &
      forall beta gamma, beta * 3%:R + gamma + val (0%N, 0%N) != 0 -> exists bad, forall alpha, alpha != bad ->
        exists V_P ps, size ps = 1%N /\
        accepts_rows omega d (preprocessed omega d columns delta 1 2 2 S_sigma) [seq column omega d val i | i <- columns] beta gamma [:: alpha] V_P ps].
Proof.
have [cr [hcr hn _]] := concrete_cr.
have hcols i : i \in columns -> (i < td_witness d + td_public_input d + td_constant d)%N by rewrite !inE => /orP[] /eqP->.
have hS := permutation_polynomialsE omega delta concrete_wf hcr hcols.
pose val (x : cell) : F := if x.1 == 0%N then 5%:R else 7%:R.
exists cr; eexists; exists val; split; first by []; first exact: hS; first by split; [exact: concrete_constrained|vm_decide].
move=> beta gamma nz.
exists ((beta * label omega columns delta (1%N, 0%N) + gamma + val (1%N, 0%N)) / (beta * 3%:R + gamma + val (0%N, 0%N))) => alpha ha.
have [|_ h] := @C23_two_parts_forgeable F omega d concrete_prim ccs cr 0%N 1%N delta val 1%N _ beta gamma alpha concrete_wf hcr isT hcols isT hS; last exact: h.
move=> [|j] y // _; rewrite hn => -[<-]; apply: contraNneq ha => e.
have el : label omega columns delta (1%N, 0%N) = 3%:R by rewrite /label /= expr1 expr0 mulr1.
by rewrite -[alpha](mulfK nz) -{1}el -e.
Qed.

(** The hypotheses of the soundness theorem are met by the same circuit in one part, with an honest prover. *)
Example C23_witness : let val (x : cell) : F := if x.2 == 0%N then 5%:R else 6%:R in
  let B := [:: 1; 2%:R; 3%:R] in
  let G (beta : F) := [seq gamma <- [seq k%:R | k <- iota 0 17] | (beta * 3%:R + gamma + 5%:R != 0) && (beta + gamma + 5%:R != 0)] in
  exists cr S_sigma,
  [/\ cycle_representation d ccs = Some cr, permutation_polynomials omega (td_rows d) columns delta cr = Some S_sigma,
      uniq B /\ (2 * 1 < size B)%N,
      forall beta, beta \in B -> uniq (G beta) /\ (2 * (2 * 1) <= size (G beta))%N &
      forall beta gamma, beta \in B -> gamma \in G beta -> exists V_P,
        accepts_rows omega d (preprocessed omega d columns delta 1 0 1 S_sigma) [seq column omega d val i | i <- columns] beta gamma [::] V_P [::]].
Proof.
move=> val B G.
have [cr [hcr hn0 hn1]] := concrete_cr.
have hcols i : i \in columns -> (i < td_witness d + td_public_input d + td_constant d)%N by rewrite !inE => /orP[] /eqP->.
have hS := permutation_polynomialsE omega delta concrete_wf hcr hcols.
exists cr; eexists; split; [by []|exact: hS|by split; vm_decide| |].
  by move=> beta; rewrite !inE => /or3P[] /eqP->; split; vm_decide.
move=> beta gamma hb; rewrite mem_filter => /andP[/andP[z1 z2] _].
have [||||S [Fs [V_P [ps [tr' [h1 h2 [s3 s0] _ h3]]]]]] := @C22_complete F omega d (seq F) (@given F) concrete_prim ccs cr columns delta val 1%N 0%N 1%N [:: beta; gamma]
  concrete_wf hcr isT isT hcols isT.
- by move=> x y /concrete_in[-> ->].
- by move=> x y /concrete_in[-> ->].
- by [].
- move=> [i j] y; rewrite !inE ltnS leqn0 /= => hi /eqP-> {j}; case/orP: hi => /eqP->; rewrite ?hn0 ?hn1 => -[<-]; rewrite /label /= ?expr1 ?expr0 ?mulr1 //.
exists V_P => j hj y; have eS := Some_inj (etrans (esym hS) h1); rewrite -eS in h2.
move/size0nil: s0 h2 => -> h2.
have := C24_agreement y h2; rewrite /= => ->.
have -> : [seq f.[y] | f <- Fs] = [:: 0; 0; 0].
  have e f : f \in Fs -> f.[y] = 0 by move=> hf; exact: h3.
  by case: Fs s3 e {h2 h3} => [|a [|b [|c []]]] //= _ e; rewrite !e // !inE eqxx ?orbT.
by move: h2; rewrite /perm_prove_eval /= => -[_ _ <-].
Qed.
End Concrete.
Print Assumptions C23_parts_order_refuted.
