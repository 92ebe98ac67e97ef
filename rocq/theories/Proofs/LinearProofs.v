From mathcomp Require Import all_ssreflect all_algebra.
From Verif.Model Require Import Base LinearCombination ConstraintSystems.
From Verif.Spec Require Import LinearSpec.
Set Implicit Arguments.
Unset Strict Implicit.
Unset Printing Implicit Defensive.
Import GRing.Theory.
Local Open Scope ring_scope.

Section P.
Variable F : fieldType.
Implicit Types (l : lc F) (x : seq F) (c : F).

Lemma vgetE (T : Type) (d : T) (s : seq T) i :
  vget s i = if (i < size s)%N then Some (nth d s i) else None.
Proof. by elim: s i => [|y s IH] [|i] //=; rewrite IH. Qed.

Lemma lc_evaluate_gen l x acc :
  ofold (fun acc (t : term F) =>
           obnd (if t.1 is i.+1 then vget x i else Some 1)
                (fun v => Some (acc + v * t.2))) acc l
  = if all (fun t => (t.1 <= size x)%N) l then Some (acc + denote l x) else None.
Proof.
elim: l acc => [|[i a] l IH] acc /=; first by rewrite /denote big_nil addr0.
case: i => [|i] /=.
  by rewrite IH /denote big_cons addrA /var_value /= mul1r mulr1.
rewrite (vgetE 0); case: ltnP => //= lt_i.
by rewrite IH /denote big_cons addrA /var_value /= mulrC.
Qed.

Lemma vars_inP l n : reflect (vars_in l n) (all (fun t => (t.1 <= n)%N) l).
Proof. exact: allP. Qed.

Lemma lc_evaluate_some l x : vars_in l (size x) -> lc_evaluate l x = Some (denote l x).
Proof. by move/vars_inP => h; rewrite /lc_evaluate lc_evaluate_gen h add0r. Qed.

Lemma lc_evaluate_none l x : ~ vars_in l (size x) -> lc_evaluate l x = None.
Proof. by move/vars_inP/negbTE => h; rewrite /lc_evaluate lc_evaluate_gen h. Qed.

Lemma denote_cons t l x : denote (t :: l) x = t.2 * var_value x t.1 + denote l x.
Proof. by rewrite /denote big_cons. Qed.

Lemma denote_cat l1 l2 x : denote (l1 ++ l2) x = denote l1 x + denote l2 x.
Proof. by rewrite /denote big_cat. Qed.

Lemma denote_perm l1 l2 x : perm_eq l1 l2 -> denote l1 x = denote l2 x.
Proof. by move=> h; rewrite /denote (perm_big _ h). Qed.

Lemma coef_cons t l i : coef_of (t :: l) i = (if t.1 == i then t.2 else 0) + coef_of l i.
Proof. by rewrite /coef_of big_cons; case: ifP => //; rewrite add0r. Qed.

Lemma coef_nil i : coef_of ([::] : lc F) i = 0.
Proof. by rewrite /coef_of big_nil. Qed.

Lemma coef_cat l1 l2 i : coef_of (l1 ++ l2) i = coef_of l1 i + coef_of l2 i.
Proof. by rewrite /coef_of big_cat. Qed.

Lemma coef_perm l1 l2 i : perm_eq l1 l2 -> coef_of l1 i = coef_of l2 i.
Proof. by move=> h; rewrite /coef_of (perm_big _ h). Qed.

(* The denotation only depends on the coefficients *)
Lemma denote_coef l x n : vars_in l n ->
  denote l x = \sum_(i < n.+1) coef_of l i * var_value x i.
Proof.
move=> h; rewrite /denote.
transitivity (\sum_(t <- l) \sum_(i < n.+1) (if t.1 == i then t.2 else 0) * var_value x i).
  apply: eq_big_seq => t tl; move: (h _ tl); rewrite -ltnS => lt.
  rewrite (bigD1 (Ordinal lt)) //= eqxx big1 ?addr0 // => i ne.
  case: eqP => e; last by rewrite mul0r.
  by case/eqP: ne; apply: val_inj.
rewrite exchange_big; apply: eq_bigr => i _.
rewrite -mulr_suml; congr (_ * _).
by rewrite /coef_of [RHS]big_mkcond.
Qed.

Lemma coef_eq_denote l1 l2 x : (forall i, coef_of l1 i = coef_of l2 i) -> denote l1 x = denote l2 x.
Proof.
move=> h.
pose n := (\max_(t <- l1 ++ l2) t.1)%N.
have h12 : forall t, t \in l1 ++ l2 -> (t.1 <= n)%N.
  by move=> t tl; rewrite /n (big_rem _ tl) /= leq_maxl.
rewrite (@denote_coef l1 x n); last by move=> t tl; apply: h12; rewrite mem_cat tl.
rewrite (@denote_coef l2 x n); last by move=> t tl; apply: h12; rewrite mem_cat tl orbT.
by apply: eq_bigr => i _; rewrite h.
Qed.

(* constructor *)
Lemma merge_adjacent_coef t l i : coef_of (merge_adjacent t l) i = coef_of (t :: l) i.
Proof.
elim: l t => [|u l IH] t //=.
case: eqP => [e|_]; rewrite ?IH !coef_cons /= ?IH ?coef_cons //.
by rewrite addrA; congr (_ + _); rewrite e; case: ifP; rewrite ?addr0.
Qed.

Lemma merge_adjacent_idx t l : exists l' : seq nat, [seq u.1 | u <- merge_adjacent t l] = t.1 :: l'
  /\ {subset l' <= [seq u.1 | u <- l]}.
Proof.
elim: l t => [|u l IH] t /=; first by exists [::].
case: eqP => [e|_].
  have [l' [h1 h2]] := IH (t.1, t.2 + u.2); exists l'; split => // j jl.
  by rewrite in_cons h2 ?orbT.
have [l' [h1 h2]] := IH u; exists (u.1 :: l'); split; first by rewrite /= h1.
move=> j; rewrite !in_cons => /orP[->//|/h2 ->]; exact: orbT.
Qed.

Lemma merge_adjacent_mem t l : [seq u.1 | u <- merge_adjacent t l] =i t.1 :: [seq u.1 | u <- l].
Proof.
elim: l t => [|u l IH] t j //=.
case: eqP => [e|_] /=.
  by rewrite IH !in_cons /= e; case: (j == t.1).
by rewrite !in_cons IH in_cons.
Qed.

Lemma merge_adjacent_sorted t l : path leq t.1 [seq u.1 | u <- l] ->
  path ltn t.1 (behead [seq u.1 | u <- merge_adjacent t l]).
Proof.
elim: l t => [|u l IH] t //= /andP[le_tu p].
case: eqP => [e|/eqP ne] /=.
  by apply: (IH (t.1, _)); rewrite -e.
have [l' [h1 h2]] := merge_adjacent_idx u l.
move: (IH _ p); rewrite h1 /= => ->; rewrite andbT.
by rewrite ltn_neqAle eq_sym ne.
Qed.

Section WithSort.
Variable srt : seq (nat * F) -> seq (nat * F).
Hypothesis srt_ok : sorts_by_index srt.

Lemma lc_of_terms_coef l i : coef_of (lc_of_terms srt l) i = coef_of l i.
Proof.
case: l => [|t l] //; rewrite /lc_of_terms.
have [hp hs] := srt_ok (t :: l).
case: (srt (t :: l)) hp hs => [|u m] hp hs; first by move/perm_size: hp.
by rewrite merge_adjacent_coef; apply: coef_perm.
Qed.

Lemma lc_of_terms_sorted l : strictly_sorted (lc_of_terms srt l).
Proof.
case: l => [|t l] //; rewrite /lc_of_terms /strictly_sorted.
have [hp hs] := srt_ok (t :: l).
case: (srt (t :: l)) hp hs => [|u m] hp hs //.
have [l' [h1 h2]] := merge_adjacent_idx u m.
by move: (merge_adjacent_sorted hs); rewrite h1.
Qed.

Lemma lc_of_terms_mem l : [seq u.1 | u <- lc_of_terms srt l] =i [seq u.1 | u <- l].
Proof.
case: l => [|t l] // j; rewrite /lc_of_terms.
have [hp _] := srt_ok (t :: l).
case: (srt (t :: l)) hp => [|u m] hp; first by move/perm_size: hp.
rewrite merge_adjacent_mem -[_ :: _ in LHS]/([seq u.1 | u <- u :: m]).
by apply: perm_mem; apply: perm_map.
Qed.

Lemma lc_of_terms_denote l x : denote (lc_of_terms srt l) x = denote l x.
Proof. by apply: coef_eq_denote => i; apply: lc_of_terms_coef. Qed.

Lemma lc_eq_denote l1 l2 x : lc_eq srt l1 l2 -> denote l1 x = denote l2 x.
Proof.
move/eqP => e; have [h1 _] := srt_ok l1; have [h2 _] := srt_ok l2.
by rewrite -(denote_perm x h1) -(denote_perm x h2) e.
Qed.

Lemma sorted_uniq_srt l : strictly_sorted l -> srt l = l.
Proof.
move=> h; have [hp hs] := srt_ok l.
have uq : uniq [seq t.1 | t <- l] by apply: sorted_uniq h; [exact: ltn_trans | exact: ltnn].
have inj : {in l &, injective (fun t : nat * F => t.1)}.
  move=> a b al bl e; move: uq al bl e; elim: (l) => [|u m IH] //= /andP[nu um].
  rewrite !in_cons => /orP[/eqP->|am] /orP[/eqP->|bm] e //; last exact: IH.
    by case/negP: nu; rewrite e; apply: map_f.
  by case/negP: nu; rewrite -e; apply: map_f.
apply: (@sorted_eq_in _ (fun a b : nat * F => (a.1 <= b.1)%N)).
- by move=> a b c _ _ _; apply: leq_trans.
- move=> a b; rewrite !(perm_mem hp) => al bl e; apply: inj => //.
  by apply/eqP; rewrite eqn_leq.
- by rewrite sorted_map in hs.
- move: h; rewrite /strictly_sorted sorted_map; apply: sub_sorted => a b; exact: ltnW.
- exact: hp.
Qed.

Lemma lc_eq_canonical l1 l2 : lc_eq srt (lc_of_terms srt l1) (lc_of_terms srt l2) =
  (lc_of_terms srt l1 == lc_of_terms srt l2).
Proof. by rewrite /lc_eq !sorted_uniq_srt //; apply: lc_of_terms_sorted. Qed.

End WithSort.

(* addition *)
Lemma lc_addE l1 l2 : lc_add l1 l2 =
    match l1, l2 with
    | t1 :: l1', t2 :: l2' =>
      if (t1.1 < t2.1)%N then t1 :: lc_add l1' l2
      else if (t1.1 > t2.1)%N then t2 :: lc_add l1 l2'
      else term_scale (term_of_var F t1.1) (t1.2 + t2.2) :: lc_add l1' l2'
    | [::], _ => l2
    | _, [::] => l1
    end.
Proof. by case: l1 => [|t1 l1]; case: l2. Qed.

Lemma lc_add_ind (P : lc F -> lc F -> Prop) :
  (forall l2, P [::] l2) -> (forall t1 l1, P (t1 :: l1) [::]) ->
  (forall t1 l1 t2 l2, P l1 (t2 :: l2) -> P (t1 :: l1) l2 -> P l1 l2 -> P (t1 :: l1) (t2 :: l2)) ->
  forall l1 l2, P l1 l2.
Proof.
move=> h0 h1 h2; elim=> [|t1 l1 IH1] //; elim=> [|t2 l2 IH2] //.
by apply: h2.
Qed.

Lemma lc_add_coef l1 l2 i : coef_of (lc_add l1 l2) i = coef_of l1 i + coef_of l2 i.
Proof.
elim/lc_add_ind: l1 / l2 => [l2|t1 l1|t1 l1 t2 l2 IHa IHb IHc].
- by rewrite lc_addE coef_nil add0r.
- by rewrite lc_addE coef_nil addr0.
rewrite lc_addE; case: ltnP => [_|le21]; first by rewrite !coef_cons IHa coef_cons addrA.
case: ltnP => [_|le12]; first by rewrite coef_cons IHb !coef_cons addrCA.
have e : t1.1 = t2.1 by apply/eqP; rewrite eqn_leq le12 le21.
rewrite !coef_cons /= IHc e mulr1.
by case: ifP => _; rewrite ?addr0 ?add0r // addrACA.
Qed.

Lemma lc_add_denote l1 l2 x : denote (lc_add l1 l2) x = denote l1 x + denote l2 x.
Proof.
rewrite -denote_cat; apply: coef_eq_denote => i.
by rewrite lc_add_coef coef_cat.
Qed.

Lemma lc_add_mem l1 l2 : [seq u.1 | u <- lc_add l1 l2] =i [seq u.1 | u <- l1] ++ [seq u.1 | u <- l2].
Proof.
elim/lc_add_ind: l1 / l2 => [l2|t1 l1|t1 l1 t2 l2 IHa IHb IHc] j.
- by rewrite lc_addE.
- by rewrite lc_addE cats0.
rewrite lc_addE; case: ltnP => [_|le21].
  by rewrite map_cons in_cons IHa.
case: ltnP => [_|le12].
  rewrite map_cons in_cons IHb !mem_cat !map_cons !in_cons.
  by case: (j == t2.1); case: (j == t1.1); case: (j \in _).
have e : t1.1 = t2.1 by apply/eqP; rewrite eqn_leq le12 le21.
rewrite !map_cons in_cons IHc !mem_cat !in_cons /= e.
by case: (j == t2.1) => //=; rewrite orbT.
Qed.

Lemma lc_add_path n l1 l2 : path ltn n [seq u.1 | u <- l1] -> path ltn n [seq u.1 | u <- l2] ->
  path ltn n [seq u.1 | u <- lc_add l1 l2].
Proof.
move: n; elim/lc_add_ind: l1 / l2 => [l2|t1 l1|t1 l1 t2 l2 IHa IHb IHc] n; try by rewrite lc_addE.
rewrite lc_addE [X in X -> _]/= [X in _ -> X -> _]/= => /andP[h1 p1] /andP[h2 p2].
case: ltnP => [lt|le21]; first by apply/andP; split => //; apply: IHa => //=; rewrite lt.
case: ltnP => [lt|le12]; first by apply/andP; split => //; apply: IHb => //=; rewrite lt.
have e : t1.1 = t2.1 by apply/eqP; rewrite eqn_leq le12 le21.
by rewrite /= h1 IHc // e.
Qed.

Lemma lc_add_sorted l1 l2 : strictly_sorted l1 -> strictly_sorted l2 -> strictly_sorted (lc_add l1 l2).
Proof.
rewrite /strictly_sorted.
case: l1 l2 => [|t1 l1] [|t2 l2] //; rewrite lc_addE => p1 p2.
case: ltnP => [lt|le21]; first by apply: lc_add_path => //=; rewrite lt.
case: ltnP => [lt|le12]; first by apply: (@lc_add_path _ (t1 :: l1)) => //=; rewrite lt.
have e : t1.1 = t2.1 by apply/eqP; rewrite eqn_leq le12 le21.
by apply: lc_add_path => //; rewrite e.
Qed.

Lemma lc_scale_coef l c i : coef_of (lc_scale l c) i = c * coef_of l i.
Proof. by rewrite /coef_of /lc_scale big_map mulr_sumr. Qed.

Lemma lc_scale_idx l c : [seq u.1 | u <- lc_scale l c] = [seq u.1 | u <- l].
Proof. by rewrite /lc_scale -map_comp. Qed.

Lemma lc_scale_denote l c x : denote (lc_scale l c) x = c * denote l x.
Proof. by rewrite /denote /lc_scale big_map mulr_sumr; apply: eq_bigr => t _; rewrite mulrA. Qed.

Lemma lc_opp_denote l x : denote (lc_opp l) x = - denote l x.
Proof. by rewrite lc_scale_denote mulN1r. Qed.

Lemma lc_sub_denote l1 l2 x : denote (lc_sub l1 l2) x = denote l1 x - denote l2 x.
Proof. by rewrite lc_add_denote lc_opp_denote. Qed.

Lemma var_add_lc_denote i l x : denote (var_add_lc i l) x = var_value x i + denote l x.
Proof. by rewrite denote_cat denote_cons /denote big_nil mul1r addr0 addrC. Qed.

Lemma strictly_increasingE l : strictly_increasing l = sorted ltn [seq t.1 | t <- l].
Proof.
elim: l => [|t1 [|t2 l] IH] //=; rewrite ltnNge; case: (t2.1 <= t1.1)%N => //=.
Qed.

Lemma sorted_last_max (t : nat * F) l : sorted ltn [seq u.1 | u <- t :: l] ->
  forall u, u \in t :: l -> (u.1 <= (last t l).1)%N.
Proof.
elim: l t => [|v l IH] t /=; first by move=> _ u; rewrite inE => /eqP->.
case/andP => h p u; rewrite in_cons => /orP[/eqP->|]; last exact: IH.
apply: leq_trans (ltnW h) _; apply: IH => //; exact: mem_head.
Qed.

Lemma lc_is_valid_spec l n : l <> [::] ->
  lc_is_valid l n = Some true <-> strictly_sorted l /\ forall t, t \in l -> (t.1 < n)%N.
Proof.
case: l => // t l _; rewrite /lc_is_valid strictly_increasingE /strictly_sorted.
case: (boolP (sorted _ _)) => s; last by split => // [[]].
rewrite /= leqNgt; split.
  case: ltnP => // h _; split => // u /(sorted_last_max s) le.
  exact: leq_ltn_trans le h.
case=> _ /(_ (last t l) (mem_last _ _)) ->; by [].
Qed.

(* evaluation laws *)
Lemma vars_in_mem l1 l2 n : [seq t.1 | t <- l1] =i [seq t.1 | t <- l2] ->
  all (fun t : nat * F => (t.1 <= n)%N) l1 = all (fun t : nat * F => (t.1 <= n)%N) l2.
Proof.
move=> h; have e (l : lc F) : all (fun t => (t.1 <= n)%N) l = all (fun i => (i <= n)%N) [seq t.1 | t <- l].
  by rewrite all_map.
by rewrite !e; apply: eq_all_r.
Qed.

Lemma lc_evaluateE l x :
  lc_evaluate l x = if all (fun t => (t.1 <= size x)%N) l then Some (denote l x) else None.
Proof. by rewrite /lc_evaluate lc_evaluate_gen add0r. Qed.

Lemma lc_evaluate_ext l1 l2 x : (forall y, denote l1 y = denote l2 y) ->
  [seq t.1 | t <- l1] =i [seq t.1 | t <- l2] -> lc_evaluate l1 x = lc_evaluate l2 x.
Proof. by move=> h hm; rewrite !lc_evaluateE h (vars_in_mem _ hm). Qed.

Lemma all_cat_idx (l1 l2 : lc F) l n : [seq t.1 | t <- l] =i [seq t.1 | t <- l1] ++ [seq t.1 | t <- l2] ->
  all (fun t : nat * F => (t.1 <= n)%N) l =
  all (fun t : nat * F => (t.1 <= n)%N) l1 && all (fun t : nat * F => (t.1 <= n)%N) l2.
Proof. by move=> h; rewrite -all_cat; apply: vars_in_mem; rewrite map_cat. Qed.

Lemma lc_evaluate_add l1 l2 x : lc_evaluate (lc_add l1 l2) x =
  if (lc_evaluate l1 x, lc_evaluate l2 x) is (Some a', Some b') then Some (a' + b') else None.
Proof.
rewrite !lc_evaluateE (all_cat_idx _ (@lc_add_mem l1 l2)) lc_add_denote.
by case: (all _ l1); case: (all _ l2).
Qed.

Lemma lc_evaluate_scale l c x : lc_evaluate (lc_scale l c) x = omap (fun a => c * a) (lc_evaluate l x).
Proof.
rewrite !lc_evaluateE lc_scale_denote -(@vars_in_mem l); first by case: (all _ _).
by rewrite lc_scale_idx.
Qed.

Lemma lc_evaluate_opp l x : lc_evaluate (lc_opp l) x = omap (fun a => - a) (lc_evaluate l x).
Proof. by rewrite lc_evaluate_scale; case: (lc_evaluate l x) => //= a; rewrite mulN1r. Qed.

Lemma lc_evaluate_sub l1 l2 x : lc_evaluate (lc_sub l1 l2) x =
  if (lc_evaluate l1 x, lc_evaluate l2 x) is (Some a', Some b') then Some (a' - b') else None.
Proof.
rewrite lc_evaluate_add lc_evaluate_opp.
by case: (lc_evaluate l1 x) => // a; case: (lc_evaluate l2 x).
Qed.

Lemma lc_evaluate_var_add i l x : lc_evaluate (var_add_lc i l) x =
  if (lc_evaluate (lc_var F i) x, lc_evaluate l x) is (Some a', Some b') then Some (a' + b') else None.
Proof.
rewrite !lc_evaluateE /var_add_lc all_cat denote_cat addrC.
by case: (all _ l); case: (all _ (lc_var F i)).
Qed.

(* canonical forms are determined by variables and coefficients *)
Lemma canonical_ext l1 l2 : strictly_sorted l1 -> strictly_sorted l2 ->
  [seq t.1 | t <- l1] =i [seq t.1 | t <- l2] -> (forall i, coef_of l1 i = coef_of l2 i) -> l1 = l2.
Proof.
rewrite /strictly_sorted => s1 s2 hm hc.
have hi : [seq t.1 | t <- l1] = [seq t.1 | t <- l2].
  by apply: (irr_sorted_eq ltn_trans ltnn).
have coefE (l : lc F) t : sorted ltn [seq t.1 | t <- l] -> t \in l -> coef_of l t.1 = t.2.
  move=> s tl; have uq : uniq [seq t.1 | t <- l] by apply: sorted_uniq s; [exact: ltn_trans | exact: ltnn].
  elim: l uq tl {s} => [|u l IH] //= /andP[nu ul]; rewrite in_cons coef_cons.
  case/orP => [/eqP->|tl].
    rewrite eqxx /coef_of big1_seq ?addr0 // => v /andP[/eqP e vl].
    by case/negP: nu; rewrite -e; apply: map_f.
  case: eqP => [e|_]; last by rewrite add0r IH.
  by case/negP: nu; rewrite e; apply: map_f.
apply: (@eq_from_nth _ (0%N, 0)); first by rewrite -!(size_map (fun t => t.1)) hi.
move=> k lt1.
have lt2 : (k < size l2)%N by rewrite -(size_map (fun t => t.1)) -hi size_map.
have e1 : (nth (0%N, 0) l1 k).1 = (nth (0%N, 0) l2 k).1.
  by rewrite -!(nth_map _ 0%N (fun t => t.1)) // hi.
have := coefE _ _ s1 (mem_nth (0%N, 0) lt1); have := coefE _ _ s2 (mem_nth (0%N, 0) lt2).
rewrite hc e1 => -> e2; move: e1 e2; by case: (nth _ l1 k) => a b; case: (nth _ l2 k) => c d /= -> ->.
Qed.

Lemma lc_of_terms_det srt1 srt2 l :
  sorts_by_index srt1 -> sorts_by_index srt2 -> lc_of_terms srt1 l = lc_of_terms srt2 l.
Proof.
move=> h1 h2; apply: canonical_ext; try exact: lc_of_terms_sorted.
  by move=> i; rewrite !lc_of_terms_mem.
by move=> i; rewrite !lc_of_terms_coef.
Qed.

(* R1CS / USCS *)
Lemma r1cs_loopP full (cs : seq (r1cs_constraint F)) :
  (forall k, k \in cs ->
     [/\ vars_in (ra k) (size full), vars_in (rb k) (size full) & vars_in (rc k) (size full)]) ->
  exists b, r1cs_loop full cs = Some b /\
   (b <-> forall k, k \in cs -> denote (ra k) full * denote (rb k) full = denote (rc k) full).
Proof.
elim: cs => [|l cs IH] h; first by exists true.
have [ha hb hc] := h l (mem_head _ _).
have [m mcs|b [h1 h2]] := IH; first by apply: h; rewrite in_cons mcs orbT.
rewrite /= (lc_evaluate_some ha) (lc_evaluate_some hb) (lc_evaluate_some hc) /=.
case: eqP => [e|ne] /=.
  exists b; split => //; rewrite h2; split => [hh m|hh m mcs].
    by rewrite in_cons => /orP[/eqP->//|/hh].
  by apply: hh; rewrite in_cons mcs orbT.
by exists false; split => //; split => // /(_ l (mem_head _ _)).
Qed.

Lemma uscs_loopP full (cs : seq (lc F)) :
  (forall l, l \in cs -> vars_in l (size full)) ->
  exists b, uscs_loop full cs = Some b /\
   (b <-> forall l, l \in cs -> denote l full ^+ 2 = 1).
Proof.
elim: cs => [|l cs IH] h; first by exists true.
have hl := h l (mem_head _ _).
have [m mcs|b [h1 h2]] := IH; first by apply: h; rewrite in_cons mcs orbT.
rewrite /= (lc_evaluate_some hl) /= -expr2.
case: eqP => [e|ne] /=.
  exists b; split => //; rewrite h2; split => [hh m|hh m mcs].
    by rewrite in_cons => /orP[/eqP->//|/hh].
  by apply: hh; rewrite in_cons mcs orbT.
by exists false; split => //; split => // /(_ l (mem_head _ _)).
Qed.

End P.
