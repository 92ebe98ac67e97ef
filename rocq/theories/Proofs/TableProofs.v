(** Proofs about PLONK tables and padding. *)
From Coq Require Import NArith Lia.
From mathcomp Require Import all_ssreflect all_algebra.
From Verif.Model Require Import Base PlonkVariable PlonkTable.
From Verif.Proofs Require Import NatTac PermProofs.
Set Implicit Arguments.
Unset Strict Implicit.
Unset Printing Implicit Defensive.
Import GRing.Theory.

Lemma vget_cat (T : Type) (a b : seq T) i : vget (a ++ b) i = if i < size a then vget a i else vget b (i - size a).
Proof. by elim: a i => [|x a IH] [|i] //=; rewrite IH. Qed.

Section Table.
Variable T : Type.
Definition all_columns (t : plonk_table T) : seq (seq T) :=
  pr_witnesses (pt_private t) ++ pu_public_inputs (pt_public t) ++ pu_constants (pt_public t) ++ pu_selectors (pt_public t).
Lemma table_atE (t : plonk_table T) i : table_at t i = vget (all_columns t) i.
Proof.
case: t => [[w] [pi c s]]; rewrite /table_at /private_at /public_at /public_size /all_columns /= !vget_cat.
case: ltnP => h1 //; case: ltnP => h2; last first.
  by rewrite !ifN -?leqNgt; try slia; rewrite [in RHS]vget_None //; slia.
case: ltnP => h3 //; case: ltnP => h4 //; rewrite ifT //; slia.
Qed.
Lemma size_all_columns (t : plonk_table T) : size (all_columns t) = table_size t.
Proof. by rewrite /all_columns /table_size /public_size !size_cat !addnA. Qed.

Lemma maxrowsE m (cs : seq (seq T)) : foldl (fun m (c : seq T) => maxn m (size c)) m cs = maxn m (\max_(c <- cs) size c).
Proof. by elim: cs m => [|c cs IH] m /=; rewrite ?big_nil ?maxn0 // IH big_cons maxnA. Qed.
Lemma rows_amountE (t : plonk_table T) : rows_amount t = \max_(c <- all_columns t) size c.
Proof. by rewrite /rows_amount !maxrowsE max0n /all_columns !big_cat /= !maxnA. Qed.
Lemma rows_amount_ge (t : plonk_table T) i c : table_at t i = Some c -> size c <= rows_amount t.
Proof.
rewrite table_atE rows_amountE; elim: (all_columns t) i => [|c' cs IH] [|i] //=; rewrite big_cons leq_max.
  by move=> [->]; rewrite leqnn.
by move=> /IH ->; rewrite orbT.
Qed.
Lemma size_vresize (s : seq T) n x : size (vresize s n x) = n.
Proof. by rewrite /vresize size_cat size_take size_nseq; case: ltnP => h; slia. Qed.
Lemma nth_vresize x0 (s : seq T) n x i : i < n -> nth x0 (vresize s n x) i = if i < size s then nth x0 s i else x.
Proof.
move=> hi; rewrite /vresize nth_cat size_take; case: (ltnP n (size s)) => h.
  by rewrite hi (ltn_trans hi h) nth_take.
case: (ltnP i (size s)) => h'; first by rewrite nth_take.
by rewrite nth_nseq ifT //; slia.
Qed.
End Table.

Lemma padded_rows_ok u : N.lt (N.of_nat u) (N.pow 2 31) ->
  exists n k, [/\ padded_rows u = Some n, n = 2 ^ k, 8 <= n, u < n & n <= maxn 8 (2 * u)].
Proof.
move=> hu; rewrite /padded_rows; case: (posnP u) => [->|u0]; first by exists 8, 3.
set p := 2 ^ up_log 2 u.
have [h1 h2] : u <= p /\ p < 2 * u.
  rewrite /p; case: (ltnP 1 u) => h; last by have -> : u = 1 by slia.
  have := @up_log_bounds 2 u isT h; rewrite -(prednK (n := up_log 2 u)) ?up_log_gt0 //= => /andP[a b].
  by rewrite b expnS ltn_mul2l.
have fits x : x <= 2 * u -> N.lt (N.of_nat x) (N.pow 2 32).
  rewrite mul2n -addnn -plusE => /leP hx; move: hu; rewrite (_ : N.pow 2 32 = N.mul 2 (N.pow 2 31)) //; lia.
have -> : fits_u32 p by apply/N.ltb_lt/fits; exact: ltnW.
rewrite /=; set q := if p == u then _ else _.
have [k [qk uq q2]] : exists k, [/\ q = 2 ^ k, u < q & q <= 2 * u].
  rewrite /q; case: eqP => e; last by exists (up_log 2 u); split; rewrite // ?(ltnW h2) // ltn_neqAle h1 andbT eq_sym; apply/eqP.
  exists (up_log 2 u).+1; rewrite /wrap_u32 N.mod_small ?Nnat.Nat2N.id; last by apply: fits; slia.
  by rewrite expnS mulnC -/p; split=> //; slia.
case: (ltnP q 8) => h8; [exists 8, 3 | exists q, k]; split=> //.
- exact: ltn_trans uq h8.
- by rewrite leq_maxl.
- by rewrite leq_max q2 orbT.
Qed.
Lemma of_nat_pow k : N.of_nat (2 ^ k) = N.pow 2 (N.of_nat k).
Proof.
elim: k => [|k IH] //; rewrite Nnat.Nat2N.inj_succ N.pow_succ_r; last by lia.
by rewrite -IH expnS -multE Nnat.Nat2N.inj_mul.
Qed.
Lemma padded_rows_wrap u : N.of_nat u = N.pow 2 31 -> padded_rows u = Some 8.
Proof.
move=> hu; have [k [hk E]] : exists k, N.of_nat k = 31%num /\ u = 2 ^ k.
  exists (N.to_nat 31); rewrite Nnat.N2Nat.id; split=> //.
  by apply: Nnat.Nat2N.inj; rewrite of_nat_pow Nnat.N2Nat.id.
have u0 : 0 < u by rewrite E expn_gt0.
rewrite /padded_rows eqn0Ngt u0 /=.
have -> : 2 ^ up_log 2 u = u by rewrite E up_expnK.
rewrite /fits_u32 hu eqxx /= /wrap_u32 muln2 -addnn -plusE Nnat.Nat2N.inj_add hu.
by vm_compute.
Qed.

Section Padding.
Variable F : zmodType.
Local Open Scope ring_scope.
Implicit Types (t : plonk_table F).

Lemma basic_paddingE t t' n : basic_padding t = Some (t', n) ->
  padded_rows (rows_amount t) = Some n /\ all_columns t' = [seq vresize c n 0 | c <- all_columns t] /\
  [/\ witnesses_amount t' = witnesses_amount t, public_inputs_amount t' = public_inputs_amount t,
      constants_amount t' = constants_amount t & selectors_amount t' = selectors_amount t].
Proof.
rewrite /basic_padding; case: padded_rows => //= p [<- <-].
rewrite /all_columns /= !map_cat; split=> //; split=> //.
by rewrite /witnesses_amount /public_inputs_amount /constants_amount /selectors_amount /= !size_map.
Qed.

(** a column padded with random cells: the old cells, then arbitrary ones *)
Lemma fill_randomP rnd u n k (cs : seq (seq F)) : (u <= n)%N ->
  size (fill_random_all rnd u n k cs).1 = size cs /\
  forall i, (i < size cs)%N -> size (nth [::] (fill_random_all rnd u n k cs).1 i) = n /\
    take u (nth [::] (fill_random_all rnd u n k cs).1 i) = take u (vresize (nth [::] cs i) n 0).
Proof.
move=> hun; rewrite /fill_random_all; elim/last_ind: cs => [|cs c [h1 h2]] //; rewrite foldl_rcons {1 3}/fill_random /=.
rewrite !size_rcons h1; split=> // i; rewrite ltnS => hi; rewrite !nth_rcons h1.
case: (ltngtP i (size cs)) hi => // [hi _|_ _]; first exact: h2.
have sz : size (take u (vresize c n 0)) = u by rewrite size_take size_vresize; case: ltnP => // ?; slia.
rewrite size_cat sz size_map size_iota size_vresize subnKC //; split=> //.
by rewrite -{1}sz take_size_cat.
Qed.

(** the relation between a column and its padded version *)
Definition padded_col (u n : nat) (c c' : seq F) : Prop :=
  [/\ size c' = n, forall i, (i < size c)%N -> nth 0 c' i = nth 0 c i & forall i, (size c <= i < u)%N -> nth 0 c' i = 0].
Definition zero_from (u : nat) (c' : seq F) : Prop := forall i, (u <= i)%N -> nth 0 c' i = 0.

Lemma Forall2_nth (A : Type) (x : A) (P : A -> A -> Prop) (s s' : seq A) : size s' = size s ->
  (forall i, (i < size s)%N -> P (nth x s i) (nth x s' i)) -> List.Forall2 P s s'.
Proof.
elim: s s' => [|a s IH] [|b s'] //= [sz] h; constructor; first exact: (h 0%N).
by apply: IH => // i hi; apply: (h i.+1).
Qed.
Lemma Forall2_vget (A : Type) (P : A -> A -> Prop) (s s' : seq A) i a : List.Forall2 P s s' -> vget s i = Some a ->
  exists2 b, vget s' i = Some b & P a b.
Proof. by move=> h; elim: h i => [|x y l l' hp _ IH] [|i] //=; [by move=> [<-]; exists y | exact: IH]. Qed.

Lemma padded_resize u n c : (size c <= u <= n)%N -> padded_col u n c (vresize c n 0) /\ zero_from (size c) (vresize c n 0).
Proof.
move=> /andP[h1 h2]; split; first split; first exact: size_vresize.
- by move=> i hi; rewrite nth_vresize ?hi //; slia.
- by move=> i /andP[h3 h4]; rewrite nth_vresize ?ltnNge ?h3 //; slia.
- move=> i hi; case: (ltnP i n) => hin; first by rewrite nth_vresize // ltnNge hi.
  by rewrite nth_default // size_vresize.
Qed.
Lemma padded_random rnd u n k (cs : seq (seq F)) : (u <= n)%N -> all (fun c => size c <= u)%N cs ->
  List.Forall2 (padded_col u n) cs (fill_random_all rnd u n k [seq vresize c u 0 | c <- cs]).1.
Proof.
move=> hun /allP ha; have [h1 h2] := fill_randomP rnd k [seq vresize c u 0 | c <- cs] hun.
rewrite size_map in h1 h2; apply: (Forall2_nth (x := [::])) => // i hi.
have [h3 h4] := h2 i hi; have hc := ha _ (mem_nth [::] hi).
have N j : (j < u)%N -> nth 0 (nth [::] (fill_random_all rnd u n k [seq vresize c u 0 | c <- cs]).1 i) j
    = if (j < size (nth [::] cs i))%N then nth 0 (nth [::] cs i) j else 0.
  move=> hj; rewrite -(nth_take _ hj) h4 nth_take // nth_vresize; last exact: leq_trans hj hun.
  by rewrite (nth_map [::]) // size_vresize hj nth_vresize.
split=> // j; first by move=> hj; rewrite N ?hj //; exact: leq_trans hj hc.
by move=> /andP[hj1 hj2]; rewrite N // ltnNge hj1.
Qed.
Lemma map_Forall2 (A : Type) (P : A -> A -> Prop) (f : A -> A) (s : seq A) : (forall x, List.In x s -> P x (f x)) -> List.Forall2 P s (map f s).
Proof. by elim: s => //= x s IH h; constructor; [apply: h; left | apply: IH => y hy; apply: h; right]. Qed.
Lemma In_mem (A : eqType) (x : A) (s : seq A) : List.In x s -> x \in s.
Proof. by elim: s => //= y s IH [->|/IH h]; rewrite inE ?eqxx ?h ?orbT. Qed.

Lemma padding_rel (zk : option (nat -> F)) t t' n : (if zk is Some rnd then zk_padding rnd t else basic_padding t) = Some (t', n) ->
  (rows_amount t <= n)%N ->
  [/\ List.Forall2 (padded_col (rows_amount t) n) (pr_witnesses (pt_private t)) (pr_witnesses (pt_private t')),
      List.Forall2 (fun c c' => padded_col (rows_amount t) n c c' /\ zero_from (size c) c') (pu_public_inputs (pt_public t)) (pu_public_inputs (pt_public t')),
      List.Forall2 (padded_col (rows_amount t) n) (pu_constants (pt_public t)) (pu_constants (pt_public t')),
      List.Forall2 (padded_col (rows_amount t) n) (pu_selectors (pt_public t)) (pu_selectors (pt_public t')) &
      zk = None -> List.Forall2 (fun c c' => zero_from (size c) c') (all_columns t) (all_columns t')].
Proof.
move=> e hun.
have [hw hp hc hs] : [/\ all (fun c => size c <= rows_amount t)%N (pr_witnesses (pt_private t)),
   all (fun c => size c <= rows_amount t)%N (pu_public_inputs (pt_public t)), all (fun c => size c <= rows_amount t)%N (pu_constants (pt_public t))
   & all (fun c => size c <= rows_amount t)%N (pu_selectors (pt_public t))].
  have : all (fun c => size c <= rows_amount t)%N (all_columns t).
    rewrite rows_amountE; elim: (all_columns t) => //= c cs IH; rewrite big_cons leq_maxl /=.
    by apply: sub_all IH => c' h; rewrite leq_max h orbT.
  by rewrite /all_columns !all_cat => /and4P[].
case: zk e => [rnd|]; rewrite /zk_padding /basic_padding; case: padded_rows => //= p [<- ep]; subst p; split=> //=.
- exact: padded_random.
- rewrite -map_comp; apply: map_Forall2 => c /In_mem hin /=.
  have hcu := allP hp _ hin; have zr i : nth 0 (vresize (vresize c (rows_amount t) 0) n 0) i = nth 0 (vresize c n 0) i.
    case: (ltnP i n) => hi; last by rewrite !nth_default // size_vresize.
    rewrite [LHS]nth_vresize // size_vresize [RHS]nth_vresize //.
    case: (ltnP i (rows_amount t)) => h; first by rewrite nth_vresize.
    by rewrite ifN // -leqNgt (leq_trans hcu).
  have [[a1 a2 a3] a4] := @padded_resize (rows_amount t) n c (introT andP (conj hcu hun)).
  split; first split; rewrite ?size_vresize //.
  + by move=> i hi; rewrite zr a2.
  + by move=> i hi; rewrite zr a3.
  + by move=> i hi; rewrite zr a4.
- exact: padded_random.
- exact: padded_random.
- by apply: map_Forall2 => c /In_mem hin; have [] := @padded_resize (rows_amount t) n c; rewrite ?hun ?(allP hw).
- by apply: map_Forall2 => c /In_mem hin; have [] := @padded_resize (rows_amount t) n c; rewrite ?hun ?(allP hp).
- by apply: map_Forall2 => c /In_mem hin; have [] := @padded_resize (rows_amount t) n c; rewrite ?hun ?(allP hc).
- by apply: map_Forall2 => c /In_mem hin; have [] := @padded_resize (rows_amount t) n c; rewrite ?hun ?(allP hs).
- rewrite /all_columns /= -!map_cat => _; apply: map_Forall2 => c /In_mem hin.
  suff hcu : (size c <= rows_amount t)%N by have [] := @padded_resize (rows_amount t) n c; rewrite ?hun ?hcu.
  by move: hin; rewrite !mem_cat => /or4P[] h; [apply: (allP hw) | apply: (allP hp) | apply: (allP hc) | apply: (allP hs)].
Qed.
Lemma padding_rel_all (zk : option (nat -> F)) t t' n : (if zk is Some rnd then zk_padding rnd t else basic_padding t) = Some (t', n) ->
  (rows_amount t <= n)%N -> List.Forall2 (padded_col (rows_amount t) n) (all_columns t) (all_columns t').
Proof.
move=> e h; have [h1 h2 h3 h4 _] := padding_rel e h; rewrite /all_columns.
do ?apply: List.Forall2_app => //.
by elim: h2 => // c c' l l' [hc _] _ ih; constructor.
Qed.
End Padding.
