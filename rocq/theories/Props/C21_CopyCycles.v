(** C21: copy constraints become exactly the cycles of the permutation. *)
From mathcomp Require Import all_ssreflect all_algebra.
From Verif.Model Require Import Base OrderedMap PlonkVariable PlonkTable CycleRepresentation.
From Verif.Spec Require Import CopySpec.
From Verif.Proofs Require Import NatTac CycleProofs.
Set Implicit Arguments.
Unset Strict Implicit.
Unset Printing Implicit Defensive.

(** [x] is the cell that the variable [v] names: the columns are numbered witnesses first, then public inputs, then
    constants, then selectors; the rotation is the row. *)
Definition names (d : table_description) (v : plonk_variable) (x : cell) : Prop :=
  pv_rotation v = Posz x.2 /\
  match pv_type v with
  | CWitness => x.1 = pv_index v
  | CPublicInput => x.1 = td_witness d + pv_index v
  | CConstant => x.1 = td_witness d + td_public_input d + pv_index v
  | CSelector => x.1 = td_witness d + td_public_input d + td_constant d + pv_index v
  | CUninitialized => False
  end.
(** The pairs of cells that the constraints of a list equate. *)
Definition constrained (d : table_description) (ccs : seq copy_constraint) (x y : cell) : Prop :=
  exists i, exists2 cc, vget ccs i = Some cc & names d (cc_first cc) x /\ names d (cc_second cc) y.
(** Every variable of the constraints names a cell. *)
Definition well_formed (d : table_description) (ccs : seq copy_constraint) : Prop :=
  forall i cc, vget ccs i = Some cc -> (exists x, names d (cc_first cc) x) /\ (exists x, names d (cc_second cc) x).
(** The cells of the columns other than selectors. *)
Definition in_table (d : table_description) (x : cell) : bool := (x.1 < td_witness d + td_public_input d + td_constant d) && (x.2 < td_rows d).

Lemma namesE d v x : names d v x <-> cell_of d v = Some x.
Proof.
rewrite /names /cell_of /global_index; case: x => i r; case: (pv_type v) => /=; case: (pv_rotation v) => n;
  split=> //= -[]; try by [].
all: by [move=> [->] -> | move=> -> -> | move=> ? ?; split; congruence].
Qed.
Lemma constrained_nil d x y : ~ constrained d [::] x y.
Proof. by move=> [i [cc]]; case: i. Qed.
Lemma constrained_cons d cc ccs a b x y : cell_of d (cc_first cc) = Some a -> cell_of d (cc_second cc) = Some b ->
  constrained d (cc :: ccs) x y <-> (x = a /\ y = b) \/ constrained d ccs x y.
Proof.
move=> ha hb; split=> [[[|i] [cc' /= h]]|[[-> ->]|[i [cc' h1 h2]]]].
- by case: h => <- [/namesE + /namesE]; rewrite ha hb => -[->] [->]; left.
- by move=> h2; right; exists i, cc'.
- by exists 0, cc => //; split; apply/namesE.
by exists i.+1, cc'.
Qed.

Lemma foldl_add_inv (l : seq cell) c0 : Inv c0 -> (forall x, reach (mapf c0) x x) ->
  (forall x, mapf c0 x = x) -> uniq l -> (forall x, x \in l -> ~~ am_count (cy_mapping c0) x) ->
  let c := foldl (@cy_add _) c0 l in [/\ Inv c, forall x, mapf c x = x & forall x, am_count (cy_mapping c) x = (x \in l) || am_count (cy_mapping c0) x].
Proof.
elim: l c0 => [|a l ih] c0 iv hr hm /=; first by split.
move=> /andP[ha ul] hl; have [iv' em] := Inv_add iv (hl a (mem_head _ _)).
have [| | | |h1 h2 h3] := ih (cy_add c0 a) iv' => //.
- by move=> x; exact: reach_refl.
- by move=> x; rewrite em.
- move=> x hx; rewrite /= am_count_set negb_or hl ?inE ?hx ?orbT // andbT.
  by apply: contraNneq ha => <-.
split=> // x; rewrite h3 /= am_count_set inE orbCA orbA; by [].
Qed.

Lemma foldl_foldl (A : Type) (f : A -> cell -> A) rows l c :
  foldl (fun c i => foldl (fun c j => f c (i, j)) c (iota 0 rows)) c l = foldl f c (flatten [seq [seq (i, j) | j <- iota 0 rows] | i <- l]).
Proof.
elim: l c => //= i l ih c; rewrite foldl_cat -ih; congr foldl.
by elim: (iota 0 rows) c => //= j s ihs c; rewrite ihs.
Qed.

Lemma initial_cycles d : let width := table_width d - td_selector d in
  let c := foldl (fun c i => foldl (fun c j => cy_add c (i, j)) c (iota 0 (td_rows d))) (Cycles [::] [::] [::] : cycles [eqType of cell]) (iota 0 width) in
  [/\ Inv c, forall x, mapf c x = x & forall x, am_count (cy_mapping c) x = in_table d x].
Proof.
rewrite /= foldl_foldl; set l := flatten _.
have iv0 : Inv (Cycles [::] [::] [::] : cycles [eqType of cell]).
  by split=> //= x; exact: reach_refl.
have hu : uniq l.
  by apply: (@allpairs_uniq _ _ _ (fun i j => (i, j))); rewrite ?iota_uniq // => -[a b] [a' b'] _ _ /=.
have [| | | |h1 h2 h3] := foldl_add_inv (l := l) iv0 => //; first by move=> x; exact: reach_refl.
split=> // -[i j]; rewrite h3 /= orbF /in_table /=.
apply/allpairsP/andP => [[[i' j'] [/= hi hj [-> ->]]]|[hi hj]].
  by move: hi hj; rewrite !mem_iota !add0n /table_width addnK.
by exists (i, j); rewrite /= !mem_iota !add0n /table_width addnK.
Qed.

Lemma linked_iff (K : Type) (p q : K -> K -> Prop) x y : (forall x y, p x y -> linked q x y) -> linked p x y -> linked q x y.
Proof.
move=> h; elim=> {x y} [x y /h//|x|x y _|x y z _ h1 _ h2]; [exact: linked_refl|exact: linked_sym|exact: linked_trans h1 h2].
Qed.

Section Run.
Variable d : table_description.
Let step c cc := olet x <- cell_of d (cc_first cc); olet y <- cell_of d (cc_second cc); apply_copy_constraint (K := [eqType of cell]) c x y.

Lemma run_constraints ccs c : Inv c -> well_formed d ccs ->
  exists c', [/\ ofold step c ccs = Some c', Inv c',
    (forall k, am_count (cy_mapping c') k <-> am_count (cy_mapping c) k \/ exists k', constrained d ccs k k' \/ constrained d ccs k' k) &
    forall u v, reach (mapf c') u v <-> linked (fun a b => reach (mapf c) a b \/ constrained d ccs a b) u v].
Proof.
elim: ccs c => [|cc ccs ih] c iv wf /=.
  exists c; split=> //.
    by move=> k; split=> [|[//|[k' [|] /constrained_nil//]]]; left.
  move=> u v; split=> [h|]; first by apply: linked_pair; left.
  elim=> {u v} [x y [//|/constrained_nil//]|x|x y _|x y z _ h1 _ h2];
    [exact: reach_refl|exact: reach_sym (iv_periodic iv)|exact: reach_trans h1 h2].
have [[a /namesE ha] [b /namesE hb]] := wf 0 cc erefl; rewrite /step ha hb /=.
have [c1 [-> iv1 k1 r1]] := apply_copy_constraintE a b iv.
have [|c' [h1 h2 h3 h4]] := ih c1 iv1; first by move=> i cc' h; apply: (wf i.+1 cc').
exists c'; split=> //.
  move=> k; rewrite h3 k1; split.
    case=> [/or3P[/eqP->|/eqP->|hk]|[k' h]]; [right; exists b; left|right; exists a; right|by left|right; exists k'].
    - by apply/(constrained_cons ccs _ _ ha hb); left.
    - by apply/(constrained_cons ccs _ _ ha hb); left.
    by case: h => h; [left|right]; apply/(constrained_cons ccs _ _ ha hb); right.
  case=> [hk|[k' [|] /(constrained_cons ccs _ _ ha hb)[[e1 e2]|h]]].
  - by left; rewrite hk !orbT.
  - by left; rewrite e1 eqxx.
  - by right; exists k'; left.
  - by left; rewrite e2 eqxx orbT.
  by right; exists k'; right.
move=> u v; rewrite h4; split; apply: linked_iff => x y.
  case=> [/r1[h|[p1 p2]|[p1 p2]]|h]; first by apply: linked_pair; left.
  - apply: linked_trans (linked_pair (or_introl p1)) (linked_trans (linked_pair (or_intror _)) (linked_pair (or_introl p2))).
    by apply/(constrained_cons ccs _ _ ha hb); left.
  - apply: linked_trans (linked_pair (or_introl p1)) (linked_trans (linked_sym (linked_pair (or_intror _))) (linked_pair (or_introl p2))).
    by apply/(constrained_cons ccs _ _ ha hb); left.
  by apply: linked_pair; right; apply/(constrained_cons ccs _ _ ha hb); right.
case=> [h|/(constrained_cons ccs _ _ ha hb)[[-> ->]|h]]; apply: linked_pair; [left; apply/r1; exact: Or31 h| |by right].
by left; apply/r1; apply: Or32; split; exact: reach_refl.
Qed.
End Run.

(** The cell that follows [x] in the constructed permutation. *)
Definition next (c : cycles [eqType of cell]) (x : cell) : option cell := am_get (cy_mapping c) x.

Lemma same_cycleE c x y : Inv c -> am_count (cy_mapping c) x -> (same_cycle (next c) x y <-> reach (mapf c) x y).
Proof.
move=> iv hx; suff e n : iter n (obind (next c)) (Some x) = Some (iter n (mapf c) x).
  by split=> -[n h]; exists n; [by move: h; rewrite e => -[]|by rewrite e h].
elim: n => // n ih; rewrite !iterS ih [LHS]/= /next mapf_some //.
by apply: iv_reach_cl iv _ hx; exists n.
Qed.

(** The construction ends for every list of constraints on cells, and gives a permutation of the cells of the table
    (and of the cells of the constraints) ... *)
Theorem C21_bijection d ccs : well_formed d ccs -> exists c, cycle_representation d ccs = Some c /\
  [/\ forall x, (next c x <> None <-> in_table d x \/ exists y, constrained d ccs x y \/ constrained d ccs y x),
      forall x y z, next c x = Some z -> next c y = Some z -> x = y,
      forall x y, next c x = Some y -> next c y <> None &
      forall y, next c y <> None -> exists x, next c x = Some y].
Proof.
move=> wf; have [iv0 h1 h2] := initial_cycles d.
have [c [e iv k r]] := run_constraints iv0 wf; exists c; split; first exact: e.
have cn x : next c x <> None <-> am_count (cy_mapping c) x by rewrite /next -am_get_mem; case: am_get.
have nx x y : next c x = Some y -> mapf c x = y by rewrite /next /mapf => ->.
split.
- by move=> x; rewrite cn k h2.
- by move=> x y z /nx <- /nx/(iv_inj iv).
- move=> x y h; apply/cn; rewrite -(nx _ _ h); apply: iv_cl iv _ _; apply/cn; by rewrite h.
move=> y /cn hy; have [n hn] := iv_periodic iv y; exists (iter n (mapf c) y).
rewrite /next mapf_some; first by rewrite -iterS hn.
by apply: iv_reach_cl iv _ hy; exists n.
Qed.

(** ... whose cycles are the classes of cells linked by the constraints. *)
Theorem C21_cycles d ccs c : well_formed d ccs -> cycle_representation d ccs = Some c ->
  forall x y, next c x <> None -> (same_cycle (next c) x y <-> linked (constrained d ccs) x y).
Proof.
move=> wf; have [iv0 h1 h2] := initial_cycles d.
have [c' [e iv k r]] := run_constraints iv0 wf; rewrite [cycle_representation _ _]e => -[<-] x y hx.
rewrite same_cycleE //; last by move: hx; rewrite /next -am_get_mem; case: am_get.
rewrite r; split; apply: linked_iff => u v; last by move=> h; apply: linked_pair; right.
case=> [[n]|]; last exact: linked_pair.
by move=> <-; elim: n => [|n ih]; [exact: linked_refl | rewrite iterS h1].
Qed.

(** Hence an assignment is invariant under the permutation exactly when it satisfies every copy constraint. *)
Theorem C21_invariant (A : Type) d ccs c (v : cell -> A) : well_formed d ccs -> cycle_representation d ccs = Some c ->
  (forall x y, next c x = Some y -> v x = v y) <-> (forall x y, constrained d ccs x y -> v x = v y).
Proof.
move=> wf hc; have cyc := C21_cycles wf hc; have [c' []] := C21_bijection wf; rewrite hc => -[<-] [dom _ cl _].
split=> h x y hxy.
  have hx : next c x <> None by apply/dom; right; exists y; left.
  have [n] := (cyc x y hx).2 (linked_pair hxy).
  elim: n y {hxy} => [y [->]//|n ih y]; rewrite iterS; case e : (iter n _ _) => [z|] //= hz.
  by rewrite (ih z e) (h z y hz).
have : linked (constrained d ccs) x y.
  by apply/cyc; [rewrite hxy|exists 1; rewrite /= hxy].
by elim=> {x y hxy} [x y /h|x|x y _ ->|x y z _ -> _ ->].
Qed.

(** A copy constraint does not depend on the order of its two variables. *)
Theorem C21_symmetric a b : make_copy_constraint a b = make_copy_constraint b a.
Proof.
rewrite /make_copy_constraint andbC; case: ifP => // _; congr Some.
case: (boolP (a == b)) => [/eqP->//|nab].
have eqbE u v : pv_eqb u v = (u == v).
  case: u v => i r l t [i' r' l' t']; rewrite /pv_eqb /=.
  by apply/and4P/eqP => [[/eqP-> /eqP-> /eqP-> /eqP->]|[-> -> -> ->]].
have lt_tot : pv_ltb a b = ~~ pv_ltb b a.
  rewrite -eqbE in nab; move: nab; rewrite /pv_eqb /pv_ltb ![pv_index b == _]eq_sym ![pv_rotation b == _]eq_sym ![pv_type b == _]eq_sym.
  case: (eqVneq (pv_index a)) => [_|h] /=; last by move=> _; rewrite -leqNgt [RHS]leq_eqVlt (negbTE h).
  case: (eqVneq (pv_rotation a)) => [_|h] /=; last by move=> _; rewrite -Order.TotalTheory.leNgt Order.POrderTheory.le_eqVlt (negbTE h).
  case: (eqVneq (pv_type a)) => [_|h] /=.
    by case: (pv_relative a); case: (pv_relative b).
  move=> _; rewrite -leqNgt [RHS]leq_eqVlt; suff -> : (ct_code (pv_type a) == ct_code (pv_type b)) = false by [].
  by apply/negbTE; apply: contra h => /eqP/(can_inj ct_codeK)->.
have eab : pv_eqb a b = false by rewrite eqbE (negbTE nab).
have eba : pv_eqb b a = false by rewrite eqbE eq_sym (negbTE nab).
by rewrite /pv_gtb eab eba /= lt_tot negbK; case: (pv_ltb b a).
Qed.

(** Two witness columns of two rows: (0,0) = (1,1) and (1,1) = (1,0) give a cycle of three cells. *)
Example C21_witness : let d := TableDescription 2 0 0 0 2 2 in
  let v i r := PlonkVariable i (Posz r) false CWitness in
  let ccs := [:: CopyConstraint (v 0 0) (v 1 1); CopyConstraint (v 1 1) (v 1 0)] in
  well_formed d ccs /\ omap (fun c => [seq next c x | x <- [:: (0, 0); (0, 1); (1, 0); (1, 1)]]) (cycle_representation d ccs) =
    Some [:: Some (1, 1); Some (0, 1); Some (0, 0); Some (1, 0)].
Proof. by split=> // -[|[|[]]] // cc [<-]; split; [exists (0, 0)|exists (1, 1)|exists (1, 1)|exists (1, 0)]. Qed.

Print Assumptions C21_bijection.
Print Assumptions C21_cycles.
Print Assumptions C21_invariant.
Print Assumptions C21_symmetric.
