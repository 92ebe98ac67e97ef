(** The index sequences of FRI cosets. *)
From mathcomp Require Import all_ssreflect all_algebra.
From Verif.Model Require Import Base OrderedMap Domain Fri.
From Verif.Proofs Require Import NatTac PermProofs KzgProofs PackingProofs.
Set Implicit Arguments.
Unset Strict Implicit.
Unset Printing Implicit Defensive.
Local Open Scope nat_scope.

Section Offsets.
(** The offsets 0, n/4, n/8, n/8 + n/4, ... *)
Fixpoint offs (n m : nat) : seq nat :=
  if m is m'.+1 then offs n m' ++ [seq n %/ 2 ^ m'.+2 + a | a <- offs n m'] else [:: 0].
Lemma size_offs n m : size (offs n m) = 2 ^ m.
Proof. by elim: m => //= m ih; rewrite size_cat size_map ih expnS mul2n addnn. Qed.
Definition row (n m x : nat) := [seq (x + o) %% n | o <- offs n m].
Lemma size_row n m x : size (row n m x) = 2 ^ m. Proof. by rewrite size_map size_offs. Qed.

Lemma index_loopE n m x fuel i : i <= m -> m <= i + fuel ->
  index_loop fuel n (2 ^ m) (n %/ 2 ^ i.+2) (2 ^ i) (row n i x) = row n m x.
Proof.
elim: fuel i => [|fuel ih] i h1 h2 /=.
  by have -> : i = m by apply/eqP; rewrite eqn_leq h1 -(addn0 i).
rewrite size_row ltn_exp2l //; case: ltnP => [h|h]; last by have -> : i = m by apply/eqP; rewrite eqn_leq h1.
have -> : n %/ 2 ^ i.+2 %/ 2 = n %/ 2 ^ i.+3 by rewrite -divnMA -expnSr.
rewrite -expnSr take_oversize ?size_row //.
have -> : row n i x ++ [seq (n %/ 2 ^ i.+2 + a) %% n | a <- row n i x] = row n i.+1 x.
  rewrite /row /= map_cat; congr (_ ++ _); rewrite -!map_comp; apply: eq_map => o /=.
  by rewrite modnDmr addnCA.
by apply: ih => //; rewrite addSnnS.
Qed.
Lemma coset_indicesE n step x : x < n -> coset_indices n step.+1 x = Some (row n step x).
Proof.
move=> hx; rewrite /coset_indices; congr Some.
have -> : 2 ^ step.+1 %/ 2 = 2 ^ step by rewrite expnS mulKn.
have -> : [:: x] = row n 0 x by rewrite /row /= addn0 modn_small.
by rewrite -[1]/(2 ^ 0) -[2 * 2]/(2 ^ 2); apply: index_loopE => //; rewrite add0n.
Qed.

(** The first step of folding: neighbours. *)
Lemma offs_pairs n m : offs n m.+1 = flatten [seq [:: o; n %/ 4 + o] | o <- offs (n %/ 2) m].
Proof.
elim: m => [|m ih]; first by rewrite /= addn0.
rewrite -[offs n m.+2]/(offs n m.+1 ++ [seq n %/ 2 ^ m.+3 + a | a <- offs n m.+1]) ih.
rewrite [offs (n %/ 2) m.+1]/= map_cat flatten_cat; congr (_ ++ _).
have -> : n %/ 2 %/ 2 ^ m.+2 = n %/ 2 ^ m.+3 by rewrite -divnMA -expnS.
by elim: (offs (n %/ 2) m) => //= o s ->; rewrite addnCA.
Qed.
Lemma nth_flatten_pairs (T U : Type) (f g : T -> U) (s : seq T) x0 y0 i : i < size s ->
  nth y0 (flatten [seq [:: f a; g a] | a <- s]) (2 * i) = f (nth x0 s i) /\
  nth y0 (flatten [seq [:: f a; g a] | a <- s]) (2 * i + 1) = g (nth x0 s i).
Proof.
elim: s i => [|a s ih] [|i] // hi; have [h1 h2] := ih i hi.
by rewrite mulnS -addnA !add2n; split.
Qed.
Lemma row_pairs k m x i : i < 2 ^ m -> m.+1 <= k ->
  nth 0 (row (2 ^ k.+1) m.+1 x) (2 * i) = (x + nth 0 (offs (2 ^ k) m) i) %% 2 ^ k.+1 /\
  nth 0 (row (2 ^ k.+1) m.+1 x) (2 * i + 1) = (x + nth 0 (offs (2 ^ k) m) i + 2 ^ k.-1) %% 2 ^ k.+1.
Proof.
move=> hi hk; have h2 : 2 * i + 1 < 2 ^ m.+1 by rewrite expnS; slia.
have h2' : 2 * i < 2 ^ m.+1 by apply: leq_ltn_trans h2; rewrite leq_addr.
have e2 : 2 ^ k.+1 %/ 2 = 2 ^ k by rewrite expnS mulKn.
have e4 : 2 ^ k.+1 %/ 4 = 2 ^ k.-1 by case: k hk {e2} => // k _; rewrite 2!expnS mulnA mulKn.
rewrite /row !(nth_map 0) ?size_offs // offs_pairs e2 e4.
have [-> ->] := @nth_flatten_pairs _ _ (fun o => o) (fun o => 2 ^ k.-1 + o) (offs (2 ^ k) m) 0 0 i (etrans (congr1 (leq i.+1) (size_offs _ _)) hi).
by split=> //; congr (_ %% _); rewrite -addnA; congr (_ + _); rewrite addnC.
Qed.

(** Membership *)
Lemma mem_offs k m o : m <= k -> (o \in offs (2 ^ k.+1) m) = (o < 2 ^ k) && (2 ^ (k - m) %| o).
Proof.
elim: m o => [|m ih] o hm.
  rewrite subn0 /= inE; case: eqP => [->|/eqP h]; first by rewrite expn_gt0 dvdn0.
  by apply/esym/negbTE; rewrite negb_and -leqNgt orbC -implybE; apply/implyP => /dvdn_leq; apply; rewrite lt0n.
have hm' : m <= k by exact: ltnW.
rewrite /= mem_cat ih //.
have -> : 2 ^ k.+1 %/ 2 ^ m.+2 = 2 ^ (k - m.+1) by rewrite -expnB // subSS.
set h := 2 ^ (k - m.+1); have h0 : 0 < h by rewrite expn_gt0.
have e : 2 ^ (k - m) = 2 * h by rewrite /h -expnS -subSn.
have -> : (o \in [seq h + a | a <- offs (2 ^ k.+1) m]) = [&& h <= o, o - h < 2 ^ k & 2 * h %| o - h].
  apply/mapP/idP => [[a]|/and3P[h1 h2 h3]].
    by rewrite ih // e => /andP[a1 a2] ->; rewrite leq_addr addKn a1.
  by exists (o - h); rewrite ?subnKC // ih // e h2.
rewrite e; have [/dvdnP[q ->]|hn] := boolP (h %| o); last first.
  rewrite andbF; apply/negbTE; rewrite negb_or; apply/andP; split.
    by apply: contra hn => /andP[_]; apply: dvdn_trans; rewrite dvdn_mull.
  apply: contra hn => /and3P[h1 _ h3]; rewrite -(subnK h1) dvdn_addl //.
  by apply: dvdn_trans h3; rewrite dvdn_mull.
rewrite andbT dvdn_pmul2r // dvdn2.
have eK : 2 ^ k = 2 ^ m.+1 * h by rewrite /h -expnD subnKC.
rewrite eK ltn_pmul2r //.
case: q => [|q]; first by rewrite expn_gt0.
rewrite mulSn leq_addr addKn /= dvdn_pmul2r // dvdn2 ltn_pmul2r //.
rewrite negbK; case hq : (odd q); rewrite ?andbT ?andbF ?orbF //=.
apply/idP/idP => hh; last by exact: ltnW.
rewrite ltn_neqAle hh andbT; apply/negP => /eqP e3.
by have := congr1 odd e3; rewrite oddX /= hq.
Qed.
Lemma uniq_offs k m : m <= k -> uniq (offs (2 ^ k.+1) m).
Proof.
elim: m => [|m ih] // hm; have hm' : m <= k by exact: ltnW.
have u := ih hm'; rewrite /= cat_uniq u (map_inj_uniq (@addnI _)) u andbT andTb.
apply/hasPn => _ /mapP[a ha ->]; rewrite /= mem_offs //.
move: ha; rewrite mem_offs // => /andP[_ ha]; rewrite negb_and; apply/orP; right.
rewrite -expnB // subSS (dvdn_addl _ ha); apply/negP => /dvdn_leq; rewrite expn_gt0 => /(_ isT).
by rewrite leq_exp2l //; slia.
Qed.
End Offsets.

(** ** Pairs *)
Section Pairs.
Variable k : nat.
Notation hn := (2 ^ k).
Notation n := (2 ^ k.+1).
Lemma n_half : n %/ 2 = hn. Proof. by rewrite expnS mulKn. Qed.
Lemma n_double : n = hn + hn. Proof. by rewrite expnS mul2n addnn. Qed.
Lemma hn_gt0 : 0 < hn. Proof. by rewrite expn_gt0. Qed.
Lemma row_lt m x : all (fun a => a < n) (row n m x).
Proof. by apply/allP => _ /mapP[o _ ->]; rewrite ltn_mod expn_gt0. Qed.
Lemma pair_cases a : a < n -> (a < hn /\ a %% hn = a /\ get_paired_index a n = a + hn) \/
  (hn <= a /\ a %% hn = a - hn /\ get_paired_index a n = a - hn).
Proof.
have h0 := hn_gt0; move=> ha; rewrite /get_paired_index n_half; case: (ltnP a hn) => h; [left|right]; split=> //.
  by rewrite !modn_small // n_double ltn_add2r.
have hs : a - hn < hn by rewrite ltn_subLR // -n_double.
split; first by rewrite -{1}(subnK h) modnDr modn_small.
by rewrite -{1}(subnK h) -addnA -n_double modnDr modn_small // (leq_trans hs) // n_double leq_addr.
Qed.
Lemma pair_min a : a < n -> minn a (get_paired_index a n) = a %% hn.
Proof.
move/pair_cases => [[h1 [-> ->]]|[h1 [-> ->]]]; first by rewrite (minn_idPl (leq_addr _ _)).
by rewrite (minn_idPr (leq_subr _ _)).
Qed.
Lemma pair_max a : a < n -> maxn a (get_paired_index a n) = a %% hn + hn.
Proof.
move/pair_cases => [[h1 [-> ->]]|[h1 [-> ->]]]; first by rewrite (maxn_idPr (leq_addr _ _)).
by rewrite (maxn_idPl (leq_subr _ _)) subnK.
Qed.
Lemma pair_lt a : a < n -> (a < get_paired_index a n) = (a < hn).
Proof.
have h0 := hn_gt0; move/pair_cases => [[h1 [_ ->]]|[h1 [_ ->]]].
  by rewrite h1 -{1}(addn0 a) ltn_add2l.
by rewrite [RHS]ltnNge h1 ltnNge leq_subr.
Qed.
Lemma pair_gt a : a < n -> (get_paired_index a n < a) = ~~ (a < hn).
Proof.
have h0 := hn_gt0; move/pair_cases => [[h1 [_ ->]]|[h1 [_ ->]]].
  by rewrite h1 ltnNge leq_addr.
by rewrite -leqNgt h1 ltn_subrL h0 (leq_trans h0 h1).
Qed.
Lemma pair_lo a : a < n -> (if a < get_paired_index a n then a else get_paired_index a n) = a %% hn.
Proof. by move=> ha; rewrite pair_lt //; case: (pair_cases ha) => -[h [-> ->]]; rewrite ?h // ltnNge h. Qed.
Lemma paired_lt a : get_paired_index a n < n. Proof. by rewrite ltn_mod expn_gt0. Qed.
Lemma pair_eq a c : a < n -> c < hn ->
  (a == c) && (get_paired_index a n == get_paired_index c n) || (get_paired_index a n == c) && (a == get_paired_index c n) = (a %% hn == c).
Proof.
move=> ha hc; have hc' : c < n by rewrite n_double (leq_trans hc) // leq_addr.
have ec : get_paired_index c n = c + hn by case: (pair_cases hc') => -[h [_ ->]] //; move: hc; rewrite ltnNge h.
rewrite ec; case: (pair_cases ha) => -[h [-> ->]].
  by rewrite eqn_add2r andbb [a == c + hn]ltn_eqF ?andbF ?orbF // ltn_addl.
rewrite [a == c]gtn_eqF ?(leq_trans hc) //=; apply/andP/idP => [[] //|/eqP e].
by rewrite e eqxx -e subnK.
Qed.

Lemma folded_index m x : m <= k -> get_folded_index x n m.+1 = x %% 2 ^ (k - m).
Proof.
move=> hm; have H : forall s j y, s <= j -> y < 2 ^ j -> get_folded_index y (2 ^ j) s = y %% 2 ^ (j - s).
  elim=> [|s ih] j y hs hy /=; first by rewrite subn0 modn_small.
  case: j hs hy => // j hs hy; have -> : 2 ^ j.+1 %/ 2 = 2 ^ j by rewrite expnS mulKn.
  rewrite ih // ?ltn_mod ?expn_gt0 // subSS modn_dvdm //.
  by rewrite dvdn_exp2l // leq_subr.
rewrite /= n_half H // ?ltn_mod ?expn_gt0 // modn_dvdm // dvdn_exp2l // leq_subr.
by [].
Qed.
(** The entries modulo the half size are the indices congruent to [x] modulo the number of leaves. *)
Lemma mem_row m x a : m <= k -> (a \in [seq b %% hn | b <- row n m x]) = (a < hn) && (a == x %[mod 2 ^ (k - m)]).
Proof.
move=> hm; have hg : 2 ^ (k - m) %| hn by rewrite dvdn_exp2l // leq_subr.
have e o : (x + o) %% n %% hn = (x + o) %% hn by rewrite modn_dvdm // dvdn_exp2l.
apply/idP/idP.
  case/mapP=> _ /mapP[o ho ->] ->; rewrite e ltn_mod expn_gt0 /= modn_dvdm //.
  by move: ho; rewrite mem_offs // => /andP[_ /dvdnP[q ->]]; rewrite addnC modnMDl.
case/andP=> ha /eqP hx; pose o := (a + (hn - x %% hn)) %% hn.
have hxx : x %% hn <= hn by apply: ltnW; rewrite ltn_mod expn_gt0.
have ho : o \in offs n m.
  rewrite mem_offs // ltn_mod expn_gt0 /= /o /dvdn modn_dvdm //.
  by rewrite -modnDml hx -(modn_dvdm x hg) modnDml subnKC.
apply/mapP; exists ((x + o) %% n); first by apply/mapP; exists o.
by rewrite e /o modnDmr addnCA -modnDmr -(modnDml x) subnKC // modnn addn0 modn_small.
Qed.
End Pairs.
