(** C20: padding preserves data and yields a usable power of two. *)
From Coq Require Import NArith.
From mathcomp Require Import all_ssreflect all_algebra.
From Verif.Model Require Import Base PlonkVariable PlonkTable.
From Verif.Proofs Require Import PermProofs TableProofs.
Set Implicit Arguments.
Unset Strict Implicit.
Unset Printing Implicit Defensive.
Import GRing.Theory.
Local Open Scope ring_scope.

Section C20.
Variable F : zmodType.
Implicit Types (t : plonk_table F).

(** [t'], with [n] rows, is a good padding of [t]: same columns kind by kind, all of length [n], a power of two that is
    at least 8, more than the height of [t] and at most double it (or 8); the old cells are unchanged and the missing cells
    below the height of [t] are zero. *)
Definition good_padding t t' n : Prop :=
  [/\ exists k, n = (2 ^ k)%N, (8 <= n)%N, (rows_amount t < n <= maxn 8 (2 * rows_amount t))%N,
      [/\ witnesses_amount t' = witnesses_amount t, public_inputs_amount t' = public_inputs_amount t,
          constants_amount t' = constants_amount t & selectors_amount t' = selectors_amount t] &
      forall j c, table_at t j = Some c -> exists2 c', table_at t' j = Some c' &
        [/\ size c' = n, forall i, (i < size c)%N -> nth 0 c' i = nth 0 c i &
            forall i, (size c <= i < rows_amount t)%N -> nth 0 c' i = 0]].

(** The height is the length of the longest column. *)
Theorem C20_rows t : rows_amount t = \max_(c <- pr_witnesses (pt_private t) ++ pu_public_inputs (pt_public t) ++
  pu_constants (pt_public t) ++ pu_selectors (pt_public t)) size c.
Proof. exact: rows_amountE. Qed.

Lemma Forall2_size (A : Type) (P : A -> A -> Prop) s s' : List.Forall2 P s s' -> size s' = size s.
Proof. by elim=> //= x y l l' _ _ ->. Qed.
Lemma padding_good (zk : option (nat -> F)) t : N.lt (N.of_nat (rows_amount t)) (N.pow 2 31) ->
  exists t' n, (if zk is Some rnd then zk_padding rnd t else basic_padding t) = Some (t', n) /\ good_padding t t' n.
Proof.
move=> h; have [n [k [e nk n8 un nle]]] := padded_rows_ok h.
have [t' et'] : exists t', (if zk is Some rnd then zk_padding rnd t else basic_padding t) = Some (t', n).
  by case: zk => [rnd|]; rewrite /zk_padding /basic_padding e /=; eexists.
exists t', n; split=> //; have [h1 h2 h3 h4 _] := padding_rel et' (ltnW un); split=> //.
- by exists k.
- by rewrite un.
- by split; apply: Forall2_size; eassumption.
- move=> j c; rewrite !table_atE => hj; exact: Forall2_vget (padding_rel_all et' (ltnW un)) hj.
Qed.

(** Both paddings are defined and good for every table of fewer than 2^31 rows, whatever the random generator answers. *)
Theorem C20_basic t : N.lt (N.of_nat (rows_amount t)) (N.pow 2 31) ->
  exists t' n, basic_padding t = Some (t', n) /\ good_padding t t' n.
Proof. exact: (@padding_good None t). Qed.
Theorem C20_zk (rnd : nat -> F) t : N.lt (N.of_nat (rows_amount t)) (N.pow 2 31) ->
  exists t' n, zk_padding rnd t = Some (t', n) /\ good_padding t t' n.
Proof. exact: (@padding_good (Some rnd) t). Qed.

(** [basic_padding] fills with zeros; both fill the public input columns with zeros. *)
Theorem C20_basic_zeros t t' n : basic_padding t = Some (t', n) -> (rows_amount t <= n)%N ->
  forall j c c', table_at t j = Some c -> table_at t' j = Some c' -> forall i, (size c <= i)%N -> nth 0 c' i = 0.
Proof.
move=> e h j c c'; rewrite !table_atE => hc hc'; have [_ _ _ _ /(_ erefl) hz] := @padding_rel F None t t' n e h.
by have [c'' e2 h2] := Forall2_vget hz hc; move: e2 h2; rewrite hc' => -[<-].
Qed.
Theorem C20_public_input_zeros rnd t t' n : zk_padding rnd t = Some (t', n) -> (rows_amount t <= n)%N ->
  forall j c c', public_input t j = Some c -> public_input t' j = Some c' -> forall i, (size c <= i)%N -> nth 0 c' i = 0.
Proof.
move=> e h j c c' hc hc'; have [_ hp _ _ _] := @padding_rel F (Some rnd) t t' n e h.
by have [c'' e2 [_ h2]] := Forall2_vget hp hc; rewrite /public_input in hc'; move: e2 h2; rewrite hc' => -[<-].
Qed.
End C20.

(** ** Finding: a table of exactly 2^31 rows is padded to 8 rows, losing its data
    (the doubling wraps around in [uint32_t]). *)
Theorem C20_wrap_refuted : exists t t' : plonk_table [zmodType of 'F_7],
  [/\ basic_padding t = Some (t', 8%N), N.of_nat (rows_amount t) = N.pow 2 31 & forall j c, table_at t' j = Some c -> size c = 8%N].
Proof.
have [u hu] : exists u, N.of_nat u = N.pow 2 31 by exists (N.to_nat (N.pow 2 31)); rewrite Nnat.N2Nat.id.
pose t : plonk_table [zmodType of 'F_7] := PlonkTable (PrivateTable [:: nseq u 0]) (PublicTable [::] [::] [::]).
have hr : rows_amount t = u by rewrite rows_amountE /t /all_columns /= big_seq1 size_nseq.
have := erefl (basic_padding t); rewrite {2}/basic_padding hr (padded_rows_wrap hu) /= => e.
eexists; eexists; split; [exact: e | by rewrite hr | ].
by move=> j c; rewrite table_atE /all_columns /=; case: j => [|j] //= [<-]; rewrite size_vresize.
Qed.

(** five rows, columns of different lengths *)
Example C20_witness :
  let F := [zmodType of 'F_7] in
  let t : plonk_table F := PlonkTable (PrivateTable [:: [:: 1; 2; 3; 4; 5]; [:: 6]]) (PublicTable [:: [:: 1]] [::] [:: [:: 1; 1; 1]]) in
  let t' : plonk_table F := PlonkTable (PrivateTable [:: [:: 1; 2; 3; 4; 5; 6; 6; 6]; [:: 6; 0; 0; 0; 0; 6; 6; 6]])
    (PublicTable [:: [:: 1; 0; 0; 0; 0; 0; 0; 0]] [::] [:: [:: 1; 1; 1; 0; 0; 6; 6; 6]]) in
  rows_amount t = 5%N /\ zk_padding (fun=> 6 : F) t = Some (t', 8%N).
Proof. by split; vm_compute. Qed.

Print Assumptions C20_rows.
Print Assumptions C20_basic.
Print Assumptions C20_zk.
Print Assumptions C20_basic_zeros.
Print Assumptions C20_public_input_zeros.
Print Assumptions C20_wrap_refuted.
