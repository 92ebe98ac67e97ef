(** C35: packing lookup tables into constant columns places every row of every table at a row selected by that table's
    selector, and selects no other row. *)
From Coq Require Import String.
From mathcomp Require Import all_ssreflect all_algebra.
From Verif.Model Require Import Base OrderedMap Expression PlonkVariable PlonkTable GatesArgument LookupArgument LookupPacking.
From Verif.Spec Require Import PackingSpec.
From Verif.Proofs Require Import NatTac PermProofs TableProofs KzgProofs PlaceholderRun PackingProofs.
Set Implicit Arguments.
Unset Strict Implicit.
Unset Printing Implicit Defensive.
Import GRing.Theory.
Local Open Scope ring_scope.

Section Packing.
Variable F : fieldType.
Variables (table_id : string -> option nat) (ids_number : nat) (ids : seq nat).
Implicit Types (d : lookup_definition F) (ns : string * lookup_subtable) (a : plonk_table F).

(** The name of a subtable in the map of the identifiers of tables. *)
Definition name_of d ns : string := String.append (ld_name d) (String.append "/"%string ns.1).

(** A table definition answers consistently: each column has the announced number of rows, and the subtables name existing
    columns and rows. *)
Definition well_formed d : Prop :=
  [/\ forall i c, vget (ld_table d) i = Some c -> size c = ld_rows d, size (ld_table d) = ld_columns d &
    forall ns, List.In ns (ld_subtables d) -> {in sub_columns ns.2, forall k, (k < ld_columns d)%N} /\ (sub_end ns.2 < ld_rows d)%N].
(** Different subtables have different identifiers. *)
Definition distinct_names (ds : seq (lookup_definition F)) : Prop :=
  uniq (flatten [seq [seq table_id (name_of d ns) | ns <- ld_subtables d] | d <- ds]).

(** The lookup tables [tables'] read in [a]: the one with the identifier of the subtable selects exactly its rows, in order.
    [n] tables were there before. *)
Definition packed (n : nat) (tables' : seq lookup_table) a d ns : Prop :=
  exists id t, [/\ table_id (name_of d ns) = Some id, (0 < id)%N, vget tables' (n + id.-1)%N = Some t,
    selected_rows a t = subtable_rows (ld_table d) ns.2 & isSome (subtable_rows (ld_table d) ns.2)].

Lemma well_formed_regular d : well_formed d -> regular d.
Proof.
case=> h _ _; apply/allP => c hc; have hi : (index c (ld_table d) < size (ld_table d))%N by rewrite index_mem.
have [c' e] := vget_lt hi; rewrite (h _ _ (_ : vget _ (index c (ld_table d)) = Some c)) //.
by rewrite e -(nth_vget [::] e) nth_index.
Qed.
Definition well_formedb d : bool :=
  [&& all (fun c => size c == ld_rows d) (ld_table d), size (ld_table d) == ld_columns d &
    all (fun ns => all (fun k => k < ld_columns d)%N (sub_columns ns.2) && (sub_end ns.2 < ld_rows d)%N) (ld_subtables d)].
Lemma well_formedW d : well_formedb d -> well_formed d.
Proof.
case/and3P=> h1 /eqP h2 h3; split=> // [i c|ns]; first exact: regularP.
elim: (ld_subtables d) h3 => [|n l IH] //= /andP[/andP[a1 a2] a3] [<-|h]; last exact: IH.
by split=> // k hk; exact: (allP a1).
Qed.
Lemma vget_app (A : Type) (s t : seq A) i : vget (s ++ t) (size s + i)%N = vget t i.
Proof. by rewrite vget_cat ltnNge leq_addr addKn. Qed.
Lemma start_ok usable : let cols := nseq (size ids) (nseq usable (0 : F)) in fits cols usable /\ zero_row cols.
Proof.
split=> [i c|k x]; rewrite ?/cell vget_nseq; case: ltnP => // _; first by case=> <-; rewrite size_nseq.
by rewrite /= vget_nseq; case: ltnP => // _ [].
Qed.

Theorem C35_pack gates lookup_gates tables a ds usable tables' a' usable' :
  uniq ids -> (forall d, List.In d ds -> well_formed d) -> distinct_names ds ->
  pack_lookup_tables table_id ids_number ids gates lookup_gates tables a ds usable = Some (tables', a', usable') ->
  forall d ns, List.In d ds -> List.In ns (ld_subtables d) -> packed (size tables) tables' a' d ns.
Proof.
move=> uq wf dn; rewrite /pack_lookup_tables; cbv zeta; set st0 := Packing _ _ _ _ _.
case hl : (ofold _ _ _) => [[st sr]|] //=; case hf : (fill_constants _ _ _) => [a1|] //= [<- <- _] d ns hd hns.
have [f1 f2] := start_ok usable.
have [_ _ _ _ /(_ d hd)[sr' [_ _ h1 h2]]] := vertical_loop (st0 := st0) (fun d h => well_formed_regular (wf d h)) dn f1 f2 hl.
have [w1 w2 /(_ ns hns)[w3 w4]] := wf d hd; rewrite -w2 in w3.
have [id [t [e1 e2 e3 e4 e5]]] := selectedE uq hf (h2 ns hns) h1 w1 w3 w4.
by exists id, t; rewrite vget_app.
Qed.

(** The packing succeeds when there are enough empty columns and every subtable has an identifier. *)
Theorem C35_succeeds (gates : seq (plonk_gate F)) (lookup_gates : seq (lookup_gate F)) tables a ds usable :
  uniq ids -> (forall id, id \in ids -> constant a id = Some [::]) ->
  (forall i, (i < sumn [seq size (ld_subtables d) | d <- ds])%N -> selector a (first_selector gates lookup_gates + i)%N = Some [::]) ->
  (forall d, List.In d ds -> [/\ well_formed d, (0 < ld_columns d <= size ids)%N & forall ns, List.In ns (ld_subtables d) ->
     exists2 id, table_id (name_of d ns) = Some id & (0 < id <= ids_number)%N]) ->
  exists r, pack_lookup_tables table_id ids_number ids gates lookup_gates tables a ds usable = Some r.
Proof.
move=> uq hc hs hd; rewrite /pack_lookup_tables; cbv zeta; set st0 := Packing _ _ _ _ _.
have [f1 _] := start_ok usable.
have h0 : ready ids ids_number (first_selector gates lookup_gates) a 0 st0.
  by split=> //=; rewrite ?size_nseq ?addn0.
case: (vertical_ok (table_id := table_id) h0 hs) => [d /hd[h1 /andP[h2 h3] h4]|[st sr] -> /=].
  split; [exact: well_formed_regular|by case: h1 => _ -> _|move=> ns hns].
  case: (h1) => _ e /(_ ns hns)[w1 w2]; rewrite e; split=> //; exact: h4.
case=> [r1 _ _ _ [_ r6]].
have [a' ->] : exists a', fill_constants ids (pk_assignment st) (pk_columns st) = Some a'.
  by apply: fill_constants_ok => //; [rewrite r1|move=> id /hc <-; exact: r6].
by eexists.
Qed.

(** Row 0 of the filled constant columns is zero, and the constant columns end before the returned number of rows. *)
Theorem C35_first_row gates lookup_gates tables a ds usable tables' a' usable' :
  uniq ids -> (forall d, List.In d ds -> well_formed d) -> distinct_names ds ->
  pack_lookup_tables table_id ids_number ids gates lookup_gates tables a ds usable = Some (tables', a', usable') ->
  forall id, id \in ids -> exists c, [/\ constant a' id = Some c, nth 0 c 0 = 0 & (size c <= usable')%N].
Proof.
move=> uq wf dn; rewrite /pack_lookup_tables; cbv zeta; set st0 := Packing _ _ _ _ _.
case hl : (ofold _ _ _) => [[st sr]|] //=; case hf : (fill_constants _ _ _) => [a1|] //= [_ <- <-] id hid.
have [f1 f2] := start_ok usable.
have [h1 h2 _ h4 _] := vertical_loop (st0 := st0) (fun d h => well_formed_regular (wf d h)) dn f1 f2 hl.
rewrite /= size_nseq in h1 h2 h4; have hi : (index id ids < size (pk_columns st))%N by rewrite h1 index_mem.
have [c hc] := vget_lt hi; have [g1 _] := fill_constantsP uq hf; have [id' e1 e2] := g1 _ _ hc.
have E : id' = id by rewrite -(nth_vget 0%N e1) nth_index.
exists c; split; [by rewrite -E| |exact: h2 hc].
case: c hc {e2} => // x c hc; apply: (h4 (index id ids)); by rewrite /cell hc.
Qed.

(** Selectors of gates and lookup gates are not reused. *)
Theorem C35_fresh_selector (gates : seq (plonk_gate F)) (lookup_gates : seq (lookup_gate F)) :
  (forall g, List.In g gates -> (g_selector g < first_selector gates lookup_gates)%N) /\
  (forall g, List.In g lookup_gates -> (lg_tag_index g < first_selector gates lookup_gates)%N).
Proof.
have mono (A : Type) (f : A -> nat) l m : (m <= foldl (fun m g => maxn m (f g)) m l)%N /\
    forall g, List.In g l -> (f g <= foldl (fun m g => maxn m (f g)) m l)%N.
  elim: l m => [|g l IH] m //=; have [h1 h2] := IH (maxn m (f g)); split; first exact: leq_trans (leq_maxl _ _) h1.
  move=> g' [<-|/h2 //]; exact: leq_trans (leq_maxr _ _) h1.
rewrite /first_selector; split=> g hg; rewrite ltnS; last by apply: (proj2 (mono _ (@lg_tag_index F) _ _)).
apply: leq_trans (proj1 (mono _ (@lg_tag_index F) _ _)); by apply: (proj2 (mono _ (@g_selector F) _ _)).
Qed.

(** ** Horizontal packing *)

(** Subtables of a table with the same range of rows share a selector: the claim holds when there are none, and when all
    tables have less than [max_usable_rows] rows. *)
Theorem C35_horizontal tables a ds cur usable mx tables' a' usable' :
  uniq ids -> (forall d, List.In d ds -> [/\ well_formed d, (ld_rows d < mx)%N &
      uniq [seq (sub_begin ns.2, sub_end ns.2) | ns <- ld_subtables d]]) -> distinct_names ds ->
  pack_lookup_tables_horizontal table_id ids_number ids tables a ds cur usable mx = Some (tables', a', usable') ->
  forall d ns, List.In d ds -> List.In ns (ld_subtables d) -> packed (size tables) tables' a' d ns.
Proof.
move=> uq wf dn; rewrite /pack_lookup_tables_horizontal; cbv zeta; set st0 := Packing _ _ _ _ _.
case hl : (ofold _ _ _) => [h|] //=; case hf : (fill_constants _ _ _) => [a1|] //= [<- <- _] d ns hd hns.
have [f1 f2] := start_ok usable.
have hreg d' : List.In d' ds -> [/\ regular d', ld_columns d' = size (ld_table d'), (ld_rows d' < mx)%N & uniq (map range (ld_subtables d'))].
  by move=> /wf[w h1 h2]; split=> //; [exact: well_formed_regular|case: w].
have [_ _ _ _ /(_ d hd)[sc' [sr' [_ _ h1 h2]]]] := horizontal_loop (st0 := st0) hreg dn f1 f2 hl.
have [[w1 w2 /(_ ns hns)[w3 w4]] _ _] := wf d hd; rewrite -w2 in w3.
have [id [t [e1 e2 e3 e4 e5]]] := selectedE uq hf (h2 ns hns) h1 w1 w3 w4.
by exists id, t; rewrite vget_app.
Qed.
End Packing.

(** ** Examples and findings *)
Section Witness.
Local Notation F := [fieldType of 'F_17].
Local Open Scope string_scope.
Definition example_ids (s : string) : option nat :=
  if String.eqb s "a/full" then Some 2%N else if String.eqb s "a/half" then Some 1%N else
  if String.eqb s "b/full" then Some 3%N else if String.eqb s "b/same" then Some 4%N else
  if String.eqb s "c/full" then Some 5%N else None.
Local Close Scope string_scope.
Definition sub1 (cols : seq nat) (b e : nat) := LookupSubtable cols b e.
Definition table_a : lookup_definition F := LookupDefinition "a"%string 2 3 ([:: [:: 5; 6; 7]; [:: 8; 9; 10]]%R : seq (seq F))
  [:: ("full"%string, sub1 [:: 0; 1]%N 0 2); ("half"%string, sub1 [:: 1]%N 0 1)].
Definition table_b : lookup_definition F := LookupDefinition "b"%string 1 2 ([:: [:: 3; 4]]%R : seq (seq F))
  [:: ("full"%string, sub1 [:: 0]%N 0 1)].
Definition empty_table (c s : nat) : plonk_table F := PlonkTable (PrivateTable [::]) (PublicTable [::] (nseq c [::]) (nseq s [::])).

Definition show (r : option (seq lookup_table * plonk_table F * nat)) (id : nat) : option (seq (seq F)) :=
  olet r <- r; olet t <- vget r.1.1 id.-1; selected_rows r.1.2 t.
Definition same (x y : option (seq (seq F))) : bool := x == y.

Lemma example_well_formed : forall d, List.In d [:: table_a; table_b] -> well_formed d.
Proof. by move=> d [<-|[<-|//]]; apply: well_formedW. Qed.
Example C35_pack_example :
  let r := pack_lookup_tables example_ids 3 [:: 1; 0]%N [::] [::] [::] (empty_table 2 5) [:: table_a; table_b] 2 in
  [/\ isSome r, same (show r 2) (Some [:: [:: 5; 8]; [:: 6; 9]; [:: 7; 10]]), same (show r 1) (Some [:: [:: 8]; [:: 9]]) &
      same (show r 3) (Some [:: [:: 3]; [:: 4]])] /\
  distinct_names example_ids [:: table_a; table_b].
Proof. by vm_compute. Qed.
Example C35_succeeds_example (gates : seq (plonk_gate F)) : gates = [:: PlonkGate [::] 1] ->
  exists r, pack_lookup_tables example_ids 3 [:: 1; 0]%N gates [::] [::] (empty_table 2 5) [:: table_a; table_b] 2 = Some r.
Proof.
move=> ->; apply: C35_succeeds => //.
- by move=> id; rewrite !inE => /orP[]/eqP->.
- by case=> [|[|[|i]]].
move=> d hd; split; [exact: example_well_formed|by case: hd => [<-|[<-|//]]|].
by case: hd => [<-|[<-|//]] ns /=; [case=> [<-|[<-|//]]|case=> [<-|//]]; eexists; vm_compute; reflexivity.
Qed.
(** Horizontal packing of the two tables: the second one does not fit under the first. *)
Example C35_horizontal_example :
  let r := pack_lookup_tables_horizontal example_ids 3 [:: 0; 1; 2]%N [::] (empty_table 3 5) [:: table_b; table_a] 1 2 5 in
  [/\ isSome r, same (show r 2) (Some [:: [:: 5; 8]; [:: 6; 9]; [:: 7; 10]]), same (show r 1) (Some [:: [:: 8]; [:: 9]]) &
      same (show r 3) (Some [:: [:: 3]; [:: 4]])] /\
  (forall d, List.In d [:: table_b; table_a] -> (ld_rows d < 5)%N && uniq [seq (sub_begin ns.2, sub_end ns.2) | ns <- ld_subtables d]).
Proof. by split; [vm_compute|move=> d [<-|[<-|//]]]. Qed.

(** Finding: two subtables of a table with the same range of rows share a selector, and the second one is declared over the
    first constant columns instead of the columns of the table (lookup_table_definition.hpp:300). *)
Definition shared_a : lookup_definition F := LookupDefinition "a"%string 1 2 ([:: [:: 5; 6]]%R : seq (seq F))
  [:: ("full"%string, sub1 [:: 0]%N 0 1)].
Definition shared_b : lookup_definition F := LookupDefinition "b"%string 1 2 ([:: [:: 3; 4]]%R : seq (seq F))
  [:: ("full"%string, sub1 [:: 0]%N 0 1); ("same"%string, sub1 [:: 0]%N 0 1)].
Definition run_shared := pack_lookup_tables_horizontal example_ids 4 [:: 0; 1]%N [::] (empty_table 2 5) [:: shared_a; shared_b] 1 2 5.

Lemma shared_well_formed : forall d, List.In d [:: shared_a; shared_b] -> well_formed d /\ (ld_rows d < 5)%N.
Proof. by move=> d [<-|[<-|//]]; split=> //; apply: well_formedW. Qed.
Lemma run_shared_some : exists tables' a' u, run_shared = Some (tables', a', u).
Proof. by do 3 eexists; vm_compute; reflexivity. Qed.
Lemma run_shared_rows : show run_shared 4 = Some [:: [:: 5]; [:: 6]] /\
  subtable_rows (ld_table shared_b) (sub1 [:: 0]%N 0 1) = Some [:: [:: 3]; [:: 4]].
Proof. by split; apply/eqP; vm_compute. Qed.

Theorem C35_shared_selector_refuted : exists table_id n (ids : seq nat) tables (a : plonk_table F) ds cur usable mx tables' a' usable',
  [/\ uniq ids, forall d, List.In d ds -> well_formed d /\ (ld_rows d < mx)%N, distinct_names table_id ds,
    pack_lookup_tables_horizontal table_id n ids tables a ds cur usable mx = Some (tables', a', usable') &
    exists d ns, [/\ List.In d ds, List.In ns (ld_subtables d) & ~ packed table_id (size tables) tables' a' d ns]].
Proof.
have [tables' [a' [u hr]]] := run_shared_some; have [h1 h2] := run_shared_rows.
exists example_ids, 4%N, [:: 0; 1]%N, [::], (empty_table 2 5), [:: shared_a; shared_b], 1%N, 2%N, 5%N, tables', a', u.
split; [by []|exact: shared_well_formed|by vm_compute|exact: hr|].
exists shared_b, ("same"%string, sub1 [:: 0]%N 0 1); split; [by right; left|by right; left|].
case=> id [t [e1 _ e3 e4 _]]; move: e1; rewrite (_ : example_ids _ = Some 4%N); last by [].
case=> ei; subst id; move: h1; rewrite /show hr /= -[in X in X -> _]/(vget tables' 3).
rewrite /= in e3; rewrite e3 /= e4 h2 => -[]/eqP; by vm_compute.
Qed.

(** Finding: a table with more than [max_usable_rows] rows loses rows: each option holds [max_usable_rows - 1] rows, but the
    number of options is computed as if it held [max_usable_rows]. *)
Definition big_a : lookup_definition F := LookupDefinition "a"%string 1 8 ([:: [:: 1; 2; 3; 4; 5; 6; 7; 8]]%R : seq (seq F))
  [:: ("full"%string, sub1 [:: 0]%N 0 7)].
Definition run_big := pack_lookup_tables_horizontal example_ids 2 [:: 0; 1; 2]%N [::] (empty_table 3 5) [:: big_a] 1 2 4.
Lemma run_big_some : exists tables' a' u, run_big = Some (tables', a', u).
Proof. by do 3 eexists; vm_compute; reflexivity. Qed.
Lemma run_big_rows : show run_big 2 = Some [:: [:: 1]; [:: 2]; [:: 3]; [:: 4]; [:: 5]; [:: 6]].
Proof. by apply/eqP; vm_compute. Qed.
Lemma big_well_formed : well_formed big_a.
Proof. by apply: well_formedW. Qed.
Theorem C35_big_table_refuted : exists table_id n (ids : seq nat) tables (a : plonk_table F) d ns cur usable mx tables' a' usable' id t rows row,
  [/\ uniq ids /\ well_formed d, List.In ns (ld_subtables d), distinct_names table_id [:: d],
    pack_lookup_tables_horizontal table_id n ids tables a [:: d] cur usable mx = Some (tables', a', usable') &
    [/\ table_id (name_of d ns) = Some id, vget tables' (size tables + id.-1)%N = Some t, selected_rows a' t = Some rows &
      (exists2 all_rows, subtable_rows (ld_table d) ns.2 = Some all_rows & row \in all_rows) /\ row \notin rows]].
Proof.
have [tables' [a' [u hr]]] := run_big_some; have h1 := run_big_rows.
move: h1; rewrite /show hr /=; case ht : (vget tables' 1) => [t|] //= hrows.
exists example_ids, 2%N, [:: 0; 1; 2]%N, [::], (empty_table 3 5), big_a, ("full"%string, sub1 [:: 0]%N 0 7), 1%N, 2%N, 4%N, tables', a', u, 2%N, t.
exists [:: [:: 1]; [:: 2]; [:: 3]; [:: 4]; [:: 5]; [:: 6]], [:: 8].
split; [split; [by []|exact: big_well_formed]|by left|by vm_compute|exact: hr|split; [by []|exact: ht|exact: hrows|]].
split; last by vm_compute.
by exists [:: [:: 1]; [:: 2]; [:: 3]; [:: 4]; [:: 5]; [:: 6]; [:: 7]; [:: 8]]; [apply/eqP; vm_compute|vm_compute].
Qed.

(** Finding: a table with exactly [max_usable_rows] rows is placed below the previous table, beyond the limit, and its columns
    are not reserved: a bigger table after it truncates and overwrites them. *)
Definition exact_a : lookup_definition F := LookupDefinition "a"%string 1 2 ([:: [:: 5; 6]]%R : seq (seq F))
  [:: ("full"%string, sub1 [:: 0]%N 0 1)].
Definition exact_b : lookup_definition F := LookupDefinition "b"%string 2 4 ([:: [:: 1; 2; 3; 4]; [:: 11; 12; 13; 14]]%R : seq (seq F))
  [:: ("full"%string, sub1 [:: 0; 1]%N 0 3)].
Definition exact_c : lookup_definition F := LookupDefinition "c"%string 1 5 ([:: [:: 1; 2; 3; 4; 5]]%R : seq (seq F))
  [:: ("full"%string, sub1 [:: 0]%N 0 4)].
Definition run_exact ds := pack_lookup_tables_horizontal example_ids 5 [:: 0; 1; 2]%N [::] (empty_table 3 5) ds 1 2 4.
Lemma run_exact_some : exists tables' a' u, run_exact [:: exact_a; exact_b; exact_c] = Some (tables', a', u).
Proof. by do 3 eexists; vm_compute; reflexivity. Qed.
Lemma run_exact_rows : show (run_exact [:: exact_a; exact_b; exact_c]) 3 = None.
Proof. by vm_compute. Qed.
Lemma exact_well_formed : forall d, List.In d [:: exact_a; exact_b; exact_c] -> well_formed d.
Proof. by move=> d [<-|[<-|[<-|//]]]; apply: well_formedW. Qed.
Theorem C35_exact_rows_refuted : exists table_id n (ids : seq nat) tables (a : plonk_table F) ds cur usable mx tables' a' usable' d ns,
  [/\ uniq ids, forall d, List.In d ds -> well_formed d, distinct_names table_id ds,
    pack_lookup_tables_horizontal table_id n ids tables a ds cur usable mx = Some (tables', a', usable') &
    [/\ List.In d ds, ld_rows d = mx, List.In ns (ld_subtables d) & ~ packed table_id (size tables) tables' a' d ns]].
Proof.
have [tables' [a' [u hr]]] := run_exact_some; have h1 := run_exact_rows.
exists example_ids, 5%N, [:: 0; 1; 2]%N, [::], (empty_table 3 5), [:: exact_a; exact_b; exact_c], 1%N, 2%N, 4%N, tables', a', u.
exists exact_b, ("full"%string, sub1 [:: 0; 1]%N 0 3).
split; [by []|exact: exact_well_formed|by vm_compute|exact: hr|split; [by right; left|by []|by left|]].
case=> id [t [e1 _ e3 e4 e5]]; move: e1; rewrite (_ : example_ids _ = Some 3%N); last by [].
case=> ei; subst id; move: h1; rewrite /show hr /=; rewrite /= in e3; rewrite e3 /= e4 => e6; by rewrite e6 in e5.
Qed.
End Witness.

Print Assumptions C35_pack.
Print Assumptions C35_succeeds.
Print Assumptions C35_first_row.
Print Assumptions C35_fresh_selector.
Print Assumptions C35_horizontal.
Print Assumptions C35_shared_selector_refuted.
Print Assumptions C35_big_table_refuted.
Print Assumptions C35_exact_rows_refuted.
