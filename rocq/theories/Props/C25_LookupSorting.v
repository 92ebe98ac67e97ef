(** C25: lookup sorting produces the merged multiset. *)
From mathcomp Require Import all_ssreflect all_algebra.
From Verif.Model Require Import Base HashMap OrderedMap LookupArgument.
From Verif.Spec Require Import LookupSpec.
From Verif.Proofs Require Import NatTac DomainProofs MapProofs KzgProofs PermProofs LookupSortProofs.
Set Implicit Arguments.
Unset Strict Implicit.
Unset Printing Implicit Defensive.
Import GRing.Theory.
Local Open Scope ring_scope.

Section C25.
Variables (F : fieldType) (rows usable : nat).
Implicit Types (cols ins vals sorted : seq (seq F)).

(** ** Specification *)
(** the values on the usable rows, column after column *)
Definition usable_cells cols : seq F := flatten [seq take usable c | c <- cols].
(** The documented layout of the compressed tables: every column starts with a zero row and every non-zero value occupies
    consecutive cells (column after column). *)
Definition table_layout vals : Prop :=
  [/\ vals != [::], forall c, c \in vals -> nth 0 c 0 = 0 & contiguous (usable_cells vals)].
(** adjacent pairs of the tables: below the usable rows every column is zero *)
Definition table_pairs vals : seq (F * F) := flatten [seq pairs (rcons (take usable c) 0) | c <- vals].
(** adjacent pairs of the sorted columns, which have one more row *)
Definition sorted_pairs sorted : seq (F * F) := flatten [seq pairs (take usable.+1 c) | c <- sorted].

Hypotheses (u0 : (0 < usable)%N) (ur : (usable < rows)%N).

Lemma usable_valuesE cols : (forall c, c \in cols -> size c = rows) -> usable_values usable cols = Some (usable_cells cols).
Proof.
move=> h; rewrite /usable_values (omapM_some (g := take usable)) // => c hc.
rewrite (omapM_some (g := nth 0 c)); last first.
  by move=> j; rewrite mem_iota add0n => hj; apply: vget_nth; rewrite h //; apply: ltn_trans ur.
congr Some; apply: (@eq_from_nth _ 0); rewrite size_map size_iota ?size_takel ?h ?(ltnW ur) //.
by move=> j hj; rewrite (nth_map 0%N) ?size_iota // nth_iota // nth_take.
Qed.
Lemma size_cells cols : (forall c, c \in cols -> size c = rows) -> size (usable_cells cols) = (size cols * usable)%N.
Proof.
elim: cols => [|c cols ih] h //=; rewrite size_cat ih => [|c' hc']; last by apply: h; rewrite inE hc' orbT.
by rewrite size_takel ?h ?mem_head ?(ltnW ur).
Qed.
Lemma cells_head cols : (forall c, c \in cols -> size c = rows) -> (forall c, c \in cols -> nth 0 c 0 = 0) ->
  exists t, usable_cells cols ++ [:: 0] = 0 :: t.
Proof.
case: cols => [|c cols] h1 h2; first by exists [::].
have := h1 c (mem_head _ _); have := h2 c (mem_head _ _); case: c {h1 h2} => [|x c] /=.
  by move=> _ e; move: ur; rewrite -e.
by move=> -> _; rewrite /usable_cells /=; case: (usable) u0 => // n _ /=; eexists.
Qed.
Lemma table_pairsE cols : (forall c, c \in cols -> size c = rows) -> (forall c, c \in cols -> nth 0 c 0 = 0) ->
  table_pairs cols = pairs (usable_cells cols ++ [:: 0]).
Proof.
elim: cols => [|c cols ih] h1 h2 //; rewrite /table_pairs /= -/(table_pairs cols).
have h1' c' : c' \in cols -> size c' = rows by move=> h; apply: h1; rewrite inE h orbT.
have h2' c' : c' \in cols -> nth 0 c' 0 = 0 by move=> h; apply: h2; rewrite inE h orbT.
rewrite ih //; have [t e] := cells_head h1' h2'.
by rewrite /usable_cells /= -/(usable_cells cols) -catA e pairs_cat.
Qed.

(** the pairs of the rows of a layout *)
Lemma nth_pairs (s : seq F) k : ((k.+1 < size s)%N) -> nth (0, 0) (pairs s) k = (nth 0 s k, nth 0 s k.+1).
Proof. by elim: s k => [|x [|y s] ih] // [|k] h //; rewrite pairs_cons2; apply: (ih k). Qed.
Lemma pairs_pad (E : seq F) m : [seq (nth 0 E k, nth 0 E k.+1) | k <- iota 0 (size E + m)] = pairs (E ++ [:: 0]) ++ nseq m (0, 0).
Proof.
rewrite iotaD map_cat; congr (_ ++ _).
  apply: (@eq_from_nth _ (0, 0)); first by rewrite size_map size_iota size_pairs size_cat addn1.
  move=> k; rewrite size_map size_iota => hk; rewrite (nth_map 0%N) ?size_iota // nth_iota // add0n.
  rewrite nth_pairs ?size_cat ?addn1 // !nth_cat hk; case: ltnP => // h.
  have -> : k.+1 = size E by apply/eqP; rewrite eqn_leq hk h.
  by rewrite subnn [in LHS](nth_default 0 (leqnn (size E))).
apply: (@eq_from_nth _ (0, 0)); rewrite size_map size_iota ?size_nseq // => k hk.
by rewrite (nth_map 0%N) ?size_iota // nth_iota // nth_nseq hk !nth_default // -?addnS leq_addr.
Qed.
Lemma pairs_layout (E : seq F) n :
  sorted_pairs (mkseq (fun i => mkseq (fun j => if (j <= usable)%N then nth 0 E (i * usable + j) else 0) rows) n) =
  [seq (nth 0 E k, nth 0 E k.+1) | k <- iota 0 (n * usable)].
Proof.
elim: n => [|n ih] //; rewrite /sorted_pairs mkseqS map_rcons flatten_rcons -/(sorted_pairs _) ih.
rewrite mulSnr iotaD map_cat; congr (_ ++ _); rewrite add0n.
apply: (@eq_from_nth _ (0, 0)); first by rewrite size_pairs size_takel ?size_mkseq // size_map size_iota.
move=> k; rewrite size_pairs size_takel ?size_mkseq //= => hk.
rewrite nth_pairs ?size_takel ?size_mkseq // !nth_take // ?ltnS ?(ltnW hk) // !nth_mkseq ?(leq_ltn_trans _ ur) ?(ltnW hk) //.
by rewrite hk (nth_map 0%N) ?size_iota // nth_iota // addnS.
Qed.
Lemma cells_layout (E : seq F) n :
  usable_cells (mkseq (fun i => mkseq (fun j => if (j <= usable)%N then nth 0 E (i * usable + j) else 0) rows) n) =
  [seq nth 0 E k | k <- iota 0 (n * usable)].
Proof.
elim: n => [|n ih] //; rewrite /usable_cells mkseqS map_rcons flatten_rcons -/(usable_cells _) ih.
rewrite mulSnr iotaD map_cat; congr (_ ++ _); rewrite add0n.
apply: (@eq_from_nth _ 0); first by rewrite size_takel ?size_mkseq ?(ltnW ur) // size_map size_iota.
move=> k; rewrite size_takel ?size_mkseq ?(ltnW ur) //= => hk.
rewrite nth_take // nth_mkseq ?(ltn_trans hk) // (ltnW hk) (nth_map 0%N) ?size_iota // nth_iota //.
Qed.

(** For all input and table columns: if the tables have the documented layout and every input value on a usable row
    occurs in a table, sorting succeeds. The sorted columns are chained end to start, the last one ends with zero; their
    values are those of the tables and the inputs, equal non-zero values together; and their adjacent pairs are the
    adjacent pairs of the tables plus one repeated pair for every input. *)
Theorem C25_sorted ins vals :
  (forall c, c \in ins ++ vals -> size c = rows) -> table_layout vals ->
  (forall x, x \in usable_cells ins -> x \in usable_cells vals) ->
  exists sorted, [/\ sort_polynomials ins vals rows usable = Some sorted,
    size sorted = (size ins + size vals)%N /\ (forall c, c \in sorted -> size c = rows),
    forall i, (i < size sorted)%N -> nth 0 (nth [::] sorted i) usable = nth 0 (nth [::] sorted i.+1) 0,
    perm_eq (usable_cells sorted) (usable_cells vals ++ usable_cells ins) /\ contiguous (usable_cells sorted) &
    perm_eq (sorted_pairs sorted) (table_pairs vals ++ [seq (x, x) | x <- usable_cells ins])].
Proof.
move=> hsz [hne hz hc] hin.
have szv c : c \in vals -> size c = rows by move=> h; apply: hsz; rewrite mem_cat h orbT.
have szi c : c \in ins -> size c = rows by move=> h; apply: hsz; rewrite mem_cat h.
rewrite /sort_polynomials !usable_valuesE //=.
set V := usable_cells vals; set I := usable_cells ins; set m := foldl _ _ _.
have hm x : hm_find (@eq_op F) m x = if x \in V then Some (count_mem x V) else None by exact: count_valuesP.
have [|m' -> hm'] /= := @count_inputsP F m I; first by move=> x /hin; rewrite hm => ->.
pose n := (size ins + size vals)%N; pose cnt x := (count_mem x V + count_mem x I)%N.
have hcnt x : x \in V -> odflt 0%N (hm_find (@eq_op F) m' x) = cnt x.
  by move=> hx; rewrite (hm' x (count_mem x V)) ?hm ?hx.
pose emit' := emit (fun x => odflt 0%N (hm_find (@eq_op F) m' x)).
have hemit prev W : (forall x, x \in prev :: W -> x != 0 -> x \in V) -> emit' prev W = emit cnt prev W.
  rewrite /emit'; elim: W prev => [|w W ih] prev h /=.
    by case: (eqVneq prev 0) => // hp; rewrite hcnt // h ?mem_head.
  case: (eqVneq w prev) => [_|_]; first by apply: ih => x hx; apply: h; rewrite !inE in hx *; case/orP: hx => ->; rewrite ?orbT.
  rewrite ih => [|x hx]; last by apply: h; rewrite inE hx orbT.
  by case: (eqVneq prev 0) => // hp; rewrite hcnt // h ?mem_head.
have [W eV] : exists W, V = 0 :: W.
  have [t] := cells_head szv hz; rewrite -/V; case: (V) (size_cells szv : size V = _) => [|x W] /=.
    move/esym/eqP; rewrite muln_eq0 size_eq0 (negbTE hne) /= => /eqP e; by move: u0; rewrite e.
  by move=> _ [-> _]; exists W.
have hruns : runs (0 :: W) by rewrite -eV; apply: runs_contiguous.
have tot x : x != 0 -> x \in W -> count_mem x V = count_mem x W by move=> hx _; rewrite eV /= eq_sym (negbTE hx).
have eE : emit' 0 V = emit cnt 0 W.
  by rewrite {1}/emit' eV /= eqxx -/emit' hemit // => x; rewrite -eV.
have hszE : (size (emit' 0%R V) <= n * usable)%N.
  rewrite eE; apply: leq_trans (emit_size (ins := I) (r := 1) _ _ hruns _ _) _ => //; first by rewrite eqxx.
    by move=> x hx _; apply: tot.
  have : (size V = (size vals * usable)%N) by exact: size_cells.
  have : (size I = (size ins * usable)%N) by exact: size_cells.
  rewrite eV /n mulnDl /= => <- <-; rewrite add1n addnC leq_add2r; exact: count_size.
have n0 : (0 < n)%N by rewrite /n; case: (vals) hne => // *; rewrite addnS.
rewrite -/n -(layout_nil F n rows usable).
have -> : (layout n rows usable 0 ([::] : seq F), 0%N, 0%N) = @lstate F n rows usable [::] by rewrite /lstate div0n mod0n.
have [s [p [-> e2]]] := @sort_loop F n rows usable u0 ur m' [::] 0 V hszE; rewrite /= e2 /=.
rewrite !size_mkseq -lt0n n0 /=.
set E := emit _ 0 V; have hE : E = emit cnt 0 W by exact: eE.
rewrite link_all //; set sorted := layout _ _ _ _ _; exists sorted.
have hl : sorted = mkseq (fun i => mkseq (fun j => if (j <= usable)%N then nth 0 E (i * usable + j) else 0) rows) n by rewrite /sorted layout_last.
have [k hk] : exists k, (n * usable = size E + k)%N by exists (n * usable - size E)%N; rewrite subnKC.
have hcells : usable_cells sorted = E ++ nseq k 0.
  rewrite hl cells_layout hk iotaD map_cat; congr (_ ++ _).
    apply: (@eq_from_nth _ 0); rewrite size_map size_iota // => j hj.
    by rewrite (nth_map 0%N) ?size_iota // nth_iota.
  apply: (@eq_from_nth _ 0); rewrite size_map size_iota ?size_nseq // => j hj.
  by rewrite (nth_map 0%N) ?size_iota // nth_iota // nth_nseq hj nth_default // leq_addr.
have hpairs : perm_eq (sorted_pairs sorted) (table_pairs vals ++ [seq (x, x) | x <- I]).
  rewrite hl pairs_layout hk pairs_pad table_pairsE // -/V.
  apply: (@count_but_one _ (0, 0)).
    rewrite !size_cat !size_pairs !size_cat !addn1 /= size_nseq size_map -hk /n mulnDl addnC.
    by rewrite (size_cells szv : size V = _) (size_cells szi : size I = _).
  move=> q hq; rewrite !count_cat (count_memPn (_ : q \notin nseq k (0, 0))); last by rewrite mem_nseq (negbTE hq) andbF.
  rewrite addn0 hE (@emit_count F (fun x => count_mem x V) (fun x => count_mem x I) q hq 1 0 W) ?eqxx //.
  - rewrite eV cat_cons /=; congr (_ + _)%N; rewrite seq.count_map /diag.
    rewrite [RHS](_ : _ = if q.1 == q.2 then count_mem q.1 I else 0%N).
      case: eqP => //= eq; case: ifP => // hq1; apply/esym/count_memPn/negP => /hin; by rewrite -/V eV hq1.
    case: (eqVneq q.1 q.2) => e.
      by apply: eq_count => x /=; rewrite pair_eq -e andbb.
    by rewrite (@eq_count _ _ pred0) ?count_pred0 // => x /=; rewrite pair_eq neq_and.
  - by move=> x hx _; apply: tot.
  - by move=> x hx hx0; rewrite -has_count has_pred1 eV inE hx orbT.
split=> //.
- split; first by rewrite size_mkseq.
  by move=> c /mapP[i _ ->]; rewrite size_mkseq.
- move=> i; rewrite hl size_mkseq => hi; rewrite nth_mkseq // nth_mkseq // leqnn.
  case: (ltnP i.+1 n) => hi1; last first.
    rewrite (nth_default [::]) ?size_mkseq // [RHS]nth_nil nth_default // -mulSnr.
    by apply: leq_trans hszE _; rewrite leq_mul2r hi1 orbT.
  by rewrite nth_mkseq // nth_mkseq ?(leq_ltn_trans _ ur) // addn0 mulSnr.
- split; last by rewrite hcells; apply: contiguous_runs; rewrite hE; apply: runs_emit.
  have := perm_map fst hpairs; rewrite hl pairs_layout table_pairsE // -/V -/I map_cat -!map_comp.
  rewrite cells_layout => h; apply: perm_trans h _; rewrite /comp /= map_id perm_cat2r.
  have -> // : [seq i.1 | i <- pairs (V ++ [:: 0])] = V.
  by move: (V) => V'; case: V' => // x V'; elim: V' x => //= y V' ih x; congr (_ :: _); apply: ih.
Qed.

(** An input that is in no table is detected: sorting fails. *)
Theorem C25_missing ins vals x :
  (forall c, c \in ins ++ vals -> size c = rows) ->
  x \in usable_cells ins -> x \notin usable_cells vals -> sort_polynomials ins vals rows usable = None.
Proof.
move=> hsz hi hv.
have szv c : c \in vals -> size c = rows by move=> h; apply: hsz; rewrite mem_cat h orbT.
have szi c : c \in ins -> size c = rows by move=> h; apply: hsz; rewrite mem_cat h.
rewrite /sort_polynomials !usable_valuesE //=; set m := foldl _ _ _.
have : hm_find (@eq_op F) m x = None by rewrite count_valuesP (negbTE hv).
suff H : hm_find (@eq_op F) m x = None -> ofold (@count_input F) m (usable_cells ins) = None by move/H => ->.
elim: (usable_cells ins) m hi => [|i I ih] m //; rewrite inE; case: eqP => [<- _ /=|hne /= hx]; rewrite {1}/count_input.
  by move=> ->.
by move=> hm; case: (hm_find _ m i) => //= k; apply: ih => //; rewrite cf_set eq_sym; case: eqP => // e; case: hne.
Qed.
End C25.

(** Columns over the integers modulo 17 with four rows, three of them usable: a table and an input column. *)
Section Examples.
Notation F := [fieldType of 'F_17].
Example C25_witness : let ins := [:: [:: 2; 1; 0; 5]] : seq (seq F) in let vals := [:: [:: 0; 1; 2; 0]] : seq (seq F) in
  [/\ forall c, c \in ins ++ vals -> size c = 4%N, table_layout 3 vals,
      forall x, x \in usable_cells 3 ins -> x \in usable_cells 3 vals &
      sort_polynomials ins vals 4 3 = Some [:: [:: 0; 1; 1; 2]; [:: 2; 2; 0; 0]]].
Proof.
split.
- by move=> c; rewrite !inE => /orP[] /eqP->.
- split=> //; first by move=> c; rewrite inE => /eqP->.
  by apply: contiguous_runs; vm_compute.
- by apply/allP; vm_compute.
- by vm_compute.
Qed.

(** ** Findings
    When a non-zero value occurs in two separated runs (which the comments of the code exclude, but nothing checks), the
    sorted columns hold it too often: they are not the merged multiset. *)
Theorem C25_separated_runs_refuted : exists (ins vals sorted : seq (seq F)),
  [/\ forall c, c \in ins ++ vals -> size c = 8%N, forall c, c \in vals -> nth 0 c 0 = 0,
      forall x, x \in usable_cells 6 ins -> x \in usable_cells 6 vals,
      sort_polynomials ins vals 8 6 = Some sorted &
      ~~ perm_eq (usable_cells 6 sorted) (usable_cells 6 vals ++ usable_cells 6 ins)].
Proof.
exists [:: nseq 8 0], [:: [:: 0; 1; 2; 1; 0; 0; 0; 0]], [:: [:: 0; 1; 1; 2; 1; 1; 0; 0]; nseq 8 0].
split=> //; try by vm_compute.
- by move=> c; rewrite !inE => /orP[] /eqP->.
- by move=> c; rewrite inE => /eqP->.
- by apply/allP; vm_compute.
Qed.
(** The same layout with a full table makes [sort_polynomials] write past the last column. *)
Theorem C25_overflow_refuted : exists (ins vals : seq (seq F)),
  [/\ forall c, c \in ins ++ vals -> size c = 8%N, forall c, c \in vals -> nth 0 c 0 = 0,
      forall x, x \in usable_cells 4 ins -> x \in usable_cells 4 vals &
      sort_polynomials ins vals 8 4 = None].
Proof.
exists [:: [:: 1; 1; 1; 1; 0; 0; 0; 0]], [:: [:: 0; 1; 2; 1; 0; 0; 0; 0]].
split=> //; try by vm_compute.
- by move=> c; rewrite !inE => /orP[] /eqP->.
- by move=> c; rewrite inE => /eqP->.
- by apply/allP; vm_compute.
Qed.
(** When a table column does not start with zero, the adjacent pairs differ. *)
Theorem C25_first_row_refuted : exists (ins vals sorted : seq (seq F)),
  [/\ forall c, c \in ins ++ vals -> size c = 4%N, contiguous (usable_cells 3 vals),
      forall x, x \in usable_cells 3 ins -> x \in usable_cells 3 vals,
      sort_polynomials ins vals 4 3 = Some sorted &
      ~~ perm_eq (sorted_pairs 3 sorted) (table_pairs 3 vals ++ [seq (x, x) | x <- usable_cells 3 ins])].
Proof.
exists [:: nseq 4 0], [:: [:: 1; 2; 0; 0]], [:: [:: 0; 1; 2; 0]; nseq 4 0].
split; try by vm_compute.
- by move=> c; rewrite !inE => /orP[] /eqP->.
- by apply: contiguous_runs; vm_compute.
- by apply/allP; vm_compute.
Qed.
End Examples.
Print Assumptions C25_sorted.
Print Assumptions C25_missing.
Print Assumptions C25_separated_runs_refuted.
