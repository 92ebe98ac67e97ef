(** FRI leaves: what the prover commits to and what the verifier puts together. *)
From mathcomp Require Import all_ssreflect all_algebra.
From Verif.Model Require Import Base OrderedMap Domain FoldPolynomial MerkleTree Quotient Fri.
From Verif.Proofs Require Import NatTac PermProofs KzgProofs PackingProofs MerkleProofs FriIndex.
Set Implicit Arguments.
Unset Strict Implicit.
Unset Printing Implicit Defensive.
Import GRing.Theory.
Local Open Scope ring_scope.

Section Layout.
Variable F : fieldType.
Implicit Types v u : seq F.

(** The pair of values at an index and its opposite, smaller index first *)
Definition pair_at (v : seq F) (hn a : nat) : F * F := (nth 0 v (a %% hn)%N, nth 0 v (a %% hn + hn)%N).
Definition rowvals (v : seq F) (k m x : nat) : seq (F * F) := [seq pair_at v (2 ^ k) a | a <- row (2 ^ k.+1) m x].
Definition flat (y : seq (F * F)) : seq F := flatten [seq [:: e.1; e.2] | e <- y].
Lemma size_rowvals v k m x : size (rowvals v k m x) = (2 ^ m)%N. Proof. by rewrite size_map size_row. Qed.

Lemma row_small k m x a : (m <= k)%N -> (x < 2 ^ (k - m))%N -> a \in row (2 ^ k.+1) m x -> (a < 2 ^ k)%N.
Proof.
move=> hm hx /mapP[o]; rewrite mem_offs // => /andP[ho /dvdnP[q e]] ->.
have e2 : (2 ^ k = 2 ^ m * 2 ^ (k - m))%N by rewrite -expnD subnKC.
have hq : (q < 2 ^ m)%N by move: ho; rewrite e e2 ltn_pmul2r // expn_gt0.
have h : (x + o < 2 ^ k)%N.
  rewrite e; apply: leq_trans (_ : q.+1 * 2 ^ (k - m) <= _)%N; first by rewrite mulSn ltn_add2r.
  by rewrite e2 leq_mul2r hq orbT.
by rewrite modn_small // (leq_trans h) // leq_exp2l.
Qed.

Lemma leaf_valuesE v k m x : size v = (2 ^ k.+1)%N -> (m <= k)%N -> (x < 2 ^ (k - m))%N ->
  leaf_values v m.+1 x = Some (flat (rowvals v k m x)).
Proof.
move=> hv hm hx; rewrite /leaf_values hv coset_indicesE; last first.
  by apply: leq_trans hx _; rewrite leq_exp2l // (leq_trans (leq_subr _ _)).
rewrite /= (omapM_some (g := fun a => [:: (pair_at v (2 ^ k) a).1; (pair_at v (2 ^ k) a).2])) /=.
  by rewrite /flat /rowvals -map_comp.
move=> a ha; have h1 := row_small hm hx ha; have h2 : (a < 2 ^ k.+1)%N by rewrite (leq_trans h1) // leq_exp2l.
have [[_ [e1 e2]]|[h _]] := pair_cases h2; last by move: h1; rewrite ltnNge h.
by rewrite !(vget_nth 0) ?hv ?paired_lt //= e1 e2.
Qed.

(** The verifier finds every pair of the committed leaf. *)
Lemma correct_orderE k m x : (m <= k)%N -> (x < 2 ^ k.+1)%N ->
  exists order, [/\ get_correct_order x (2 ^ k.+1) m.+1 [seq (a, get_paired_index a (2 ^ k.+1)) | a <- row (2 ^ k.+1) m x] = Some order,
    size order = (2 ^ m)%N, all (fun i => i < 2 ^ m)%N order &
    [seq (nth 0%N (row (2 ^ k.+1) m x) i %% 2 ^ k)%N | i <- order] =
    [seq (a %% 2 ^ k)%N | a <- row (2 ^ k.+1) m (x %% 2 ^ (k - m))]].
Proof.
move=> hm hx; rewrite /get_correct_order folded_index // coset_indicesE; last first.
  by rewrite (@leq_trans (2 ^ (k - m))) // ?ltn_mod ?expn_gt0 // leq_exp2l // (leq_trans (leq_subr _ _)).
set y := (x %% 2 ^ (k - m))%N; have hy : (y < 2 ^ (k - m))%N by rewrite ltn_mod expn_gt0.
have -> : (2 ^ m.+1 %/ 2 = 2 ^ m)%N by rewrite expnS mulKn.
rewrite /= size_map size_row eqxx.
set R := row (2 ^ k.+1) m x; set input := map _ R.
pose P c := (fun v : nat * nat => (v.1 == c) && (v.2 == get_paired_index c (2 ^ k.+1)) || (v.2 == c) && (v.1 == get_paired_index c (2 ^ k.+1))).
have H c : c \in row (2 ^ k.+1) m y -> (find (P c) input < 2 ^ m)%N /\ (nth 0%N R (find (P c) input) %% 2 ^ k)%N = (c %% 2 ^ k)%N.
  move=> hc; have c1 := row_small hm hy hc.
  have hall i : (i < 2 ^ m)%N -> P c (nth (0%N, 0%N) input i) = (nth 0%N R i %% 2 ^ k == c)%N.
    move=> hi; have hr : (i < size R)%N by rewrite size_row.
    rewrite /P (nth_map 0%N) //=; apply: pair_eq => //.
    exact: (allP (row_lt k m x) _ (mem_nth _ hr)).
  have hh : has (P c) input.
    have : c \in [seq (b %% 2 ^ k)%N | b <- R].
      rewrite mem_row // c1 /=.
      have : (c %% 2 ^ k)%N \in [seq (b %% 2 ^ k)%N | b <- row (2 ^ k.+1) m y] by apply: map_f.
      by rewrite mem_row // modn_small // c1 /= /y modn_mod.
    case/mapP=> b /(nthP 0%N)[i hi <-] e; apply/(has_nthP (0%N, 0%N)); exists i; first by rewrite size_map.
    by rewrite hall ?e // -(size_row (2 ^ k.+1) m x).
  have hf := hh; rewrite has_find size_map size_row in hf; split=> //.
  have := nth_find (0%N, 0%N) hh; rewrite hall // => /eqP ->; by rewrite modn_small.
exists [seq find (P c) input | c <- row (2 ^ k.+1) m y]; split.
- by apply: omapM_some => c hc /=; rewrite -/(P c) (H c hc).1.
- by rewrite size_map size_row.
- by rewrite all_map; apply/allP => c hc /=; rewrite (H c hc).1.
by rewrite -map_comp; apply/eq_in_map => c hc /=; rewrite (H c hc).2.
Qed.

Lemma pair_at_mod v hn a b : (a %% hn)%N = (b %% hn)%N -> pair_at v hn a = pair_at v hn b.
Proof. by rewrite /pair_at => ->. Qed.
Lemma ordered_valuesE v k m x order : all (fun i => i < 2 ^ m)%N order ->
  [seq (nth 0%N (row (2 ^ k.+1) m x) i %% 2 ^ k)%N | i <- order] =
    [seq (a %% 2 ^ k)%N | a <- row (2 ^ k.+1) m (x %% 2 ^ (k - m))] ->
  ordered_values order (rowvals v k m x) = Some (flat (rowvals v k m (x %% 2 ^ (k - m)))).
Proof.
move=> ho e; rewrite /ordered_values.
rewrite (omapM_some (g := fun i => let p := pair_at v (2 ^ k) (nth 0%N (row (2 ^ k.+1) m x) i) in [:: p.1; p.2])) /=; last first.
  move=> i hi; have hi2 := allP ho i hi; rewrite (vget_nth (0, 0)) ?size_rowvals //=.
  by rewrite (nth_map 0%N) // size_row.
rewrite /flat /rowvals; congr (Some (flatten _)).
have E (s : seq nat) : [seq (let p := pair_at v (2 ^ k) a in [:: p.1; p.2]) | a <- s] =
    [seq [:: nth 0 v b; nth 0 v (b + 2 ^ k)] | b <- [seq (a %% 2 ^ k)%N | a <- s]] by rewrite -map_comp.
rewrite -map_comp [RHS](E _) -e -(map_comp (fun b => [:: nth 0 v b; nth 0 v (b + 2 ^ k)])).
by [].
Qed.

(** ** Trees *)
Variables (Dg : eqType) (hash_leaf : seq F -> Dg) (hash_node : Dg -> Dg -> Dg).
Notation root := (tr_root hash_leaf hash_node).
Lemma precommit_valuesE (vs : seq (seq F)) k m : all (fun v => size v == 2 ^ k.+1)%N vs -> (m <= k)%N ->
  precommit_values vs (2 ^ k.+1) m.+1 =
  Some (Tree (k - m) [seq flatten [seq flat (rowvals v k m x) | v <- vs] | x <- iota 0 (2 ^ (k - m))]).
Proof.
move=> hvs hm; rewrite /precommit_values -expnB // subSS.
rewrite (omapM_some (g := fun x => flatten [seq flat (rowvals v k m x) | v <- vs])) /=.
  by rewrite /make_merkle_tree size_map size_iota trunc_expnK // eqxx.
move=> x; rewrite mem_iota add0n => /andP[_ hx].
by rewrite (omapM_some (g := fun v => flat (rowvals v k m x))) // => v hv; apply: leaf_valuesE => //; exact/eqP/(allP hvs).
Qed.
Lemma proof_specializedE (t : tree F) k m x : tr_depth t = (k - m)%N -> (m <= k)%N -> (x < 2 ^ (k - m))%N ->
  make_proof_specialized hash_leaf hash_node x (2 ^ k.+1) t =
  Some (MerkleProof (root t) x (merkle_path hash_node (k - m) (tr_leaf hash_leaf t) x)).
Proof.
move=> ht hm hx; rewrite /make_proof_specialized.
have h1 : (x < 2 ^ k)%N by rewrite (leq_trans hx) // leq_exp2l // leq_subr.
by rewrite pair_min ?(leq_trans h1) ?leq_exp2l // modn_small // ht hx.
Qed.
Lemma mp_validateE (t : tree F) d x leaf : tr_depth t = d -> (x < 2 ^ d)%N -> nth [::] (tr_leaves t) x = leaf ->
  mp_validate hash_leaf hash_node (MerkleProof (root t) x (merkle_path hash_node d (tr_leaf hash_leaf t) x)) leaf.
Proof.
move=> ht hx hl; rewrite /mp_validate /= size_merkle_path /tr_root ht -hl -/(tr_leaf hash_leaf t x).
exact: merkle_verify_path.
Qed.
End Layout.
