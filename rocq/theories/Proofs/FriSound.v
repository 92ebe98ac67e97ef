(** What an accepted FRI query says about the committed vectors. *)
From mathcomp Require Import all_ssreflect all_algebra.
From Verif.Model Require Import Base OrderedMap Domain FoldPolynomial MerkleTree Quotient Fri.
From Verif.Spec Require Import FriSpec.
From Verif.Proofs Require Import NatTac FieldTac PermProofs KzgProofs PackingProofs MerkleProofs DomainProofs FoldProofs PlaceholderRun FriIndex FriLayout FriFold FriRounds FriComplete.
Set Implicit Arguments.
Unset Strict Implicit.
Unset Printing Implicit Defensive.
Import GRing.Theory.
Local Open Scope ring_scope.

Section Opening.
Variable F : fieldType.
Variables (Dg : eqType) (hash_leaf : seq F -> Dg) (hash_node : Dg -> Dg -> Dg).
Notation broken := (hash_broken hash_leaf hash_node).
Notation root := (tr_root hash_leaf hash_node).

Lemma node_inj a b a' b' : hash_node a b = hash_node a' b' -> broken \/ (a = a' /\ b = b').
Proof. by move=> e; case: ((a, b) =P (a', b')) => [[-> ->]|ne]; [right|left; constructor 1; exists a, b, a', b']. Qed.
Lemma leaf_inj s s' : hash_leaf s = hash_leaf s' -> broken \/ s = s'.
Proof. by move=> e; case: (s =P s') => [->|ne]; [right|left; constructor 2; exists s, s']. Qed.

Lemma fold_opening s d : forall d' i path (lf : nat -> seq F),
  merkle_fold hash_node d' i (hash_leaf s) path = Some (merkle_root hash_node d (fun j => hash_leaf (lf j))) ->
  broken \/ d' = d /\ exists j, [/\ (j < 2 ^ d)%N, (i < 2 ^ d -> j = i)%N & s = lf j].
Proof.
elim: d => [|d IH] [|d'] i path lf.
- case: path => //= -[/leaf_inj[|->]]; first by left.
  by right; split=> //; exists 0%N; split=> //; case: i.
- case: path => //= c path; case: ifP => _; case: (merkle_fold _ _ _ _ _) => //= r [e]; left; constructor 3;
    by do 3 eexists; symmetry; exact: e.
- by case: path => //= -[e]; left; constructor 3; do 3 eexists; exact: e.
case: path => //= c path; case: ifP => hi; case E : (merkle_fold _ _ _ _ _) => [r|] //= [/node_inj[|[e1 e2]]]; try by left.
  rewrite e1 in E; case: (IH _ _ _ _ E) => [|[e [j [h1 h2 h3]]]]; first by left.
  right; split; first by rewrite e.
  exists j; split=> //; first by rewrite (leq_trans h1) // leq_exp2l.
  by move=> _; apply: h2; rewrite -e.
rewrite e2 in E; case: (IH _ _ _ (fun j => lf (2 ^ d + j)%N) E) => [|[e [j [h1 h2 h3]]]]; first by left.
right; split; first by rewrite e.
rewrite e in hi; move/negbT: hi; rewrite -leqNgt => hi.
exists (2 ^ d + j)%N; split=> //; first by rewrite expnS mul2n -addnn ltn_add2l.
by move=> hi2; rewrite e in h2; rewrite h2 ?subnKC // -(ltn_add2r (2 ^ d)) subnK // addnn -mul2n -expnS.
Qed.
Lemma opening (t : tree F) p leaf : mp_root p = root t -> mp_validate hash_leaf hash_node p leaf ->
  broken \/ exists j, [/\ (j < 2 ^ tr_depth t)%N, (mp_position p < 2 ^ tr_depth t -> j = mp_position p)%N & leaf = nth [::] (tr_leaves t) j].
Proof.
move=> hr /eqP; rewrite hr => /fold_opening[|[_ [j h]]]; first by left.
by right; exists j.
Qed.
End Opening.

Section Reading.
Variable F : fieldType.
Implicit Types y w : seq (F * F).

(** The first 2^n entries *)
Definition agree (n : nat) y w : Prop := [/\ size w = (2 ^ n)%N, (2 ^ n <= size y)%N & forall i, (i < 2 ^ n)%N -> vget y i = vget w i].
Lemma order_all k m x order : (m <= k)%N -> size order = (2 ^ m)%N -> all (fun i => i < 2 ^ m)%N order ->
  [seq (nth 0%N (row (2 ^ k.+1) m x) i %% 2 ^ k)%N | i <- order] =
    [seq (a %% 2 ^ k)%N | a <- row (2 ^ k.+1) m (x %% 2 ^ (k - m))] -> forall i, (i < 2 ^ m)%N -> i \in order.
Proof.
move=> hm h2 h3 h4 i hi.
have ur : uniq [seq (a %% 2 ^ k)%N | a <- row (2 ^ k.+1) m (x %% 2 ^ (k - m))].
  rewrite /row -map_comp map_inj_in_uniq ?uniq_offs // => a b; rewrite !mem_offs // => /andP[ha _] /andP[hb _] /=.
  by rewrite !modn_dvdm ?dvdn_exp2l // => /eqP; rewrite eqn_modDl !modn_small // => /eqP.
have uo : uniq order by apply: (@map_uniq _ _ (fun i => nth 0%N (row (2 ^ k.+1) m x) i %% 2 ^ k)%N); rewrite h4.
have sub : {subset order <= iota 0 (2 ^ m)} by move=> j hj; rewrite mem_iota; apply: (allP h3).
have /(uniq_min_size uo sub)[_ h] : (size (iota 0 (2 ^ m)) <= size order)%N by rewrite size_iota h2.
by rewrite h mem_iota.
Qed.

Lemma ordered_size order y s : ordered_values order y = Some s -> size s = (2 * size order)%N.
Proof.
rewrite /ordered_values; elim: order s => [|i order IH] s /=; first by case=> <-.
case: (vget y i) => //= e; move: IH; case: (omapM _ _) => //= s' /(_ _ erefl) h [<-] /=; by rewrite h mulnS.
Qed.
Lemma ordered_inj order y w s : ordered_values order y = Some s -> ordered_values order w = Some s ->
  forall i, i \in order -> exists e, vget y i = Some e /\ vget w i = Some e.
Proof.
rewrite /ordered_values; elim: order s => [|i order IH] s //=.
case ey : (vget y i) => [[a b]|] //=; case Ey : (omapM _ order) => [sy|] //= -[<-].
case ew : (vget w i) => [[a' b']|] //=; case Ew : (omapM _ order) => [sw|] //= -[e1 e2 e3] j.
rewrite inE => /orP[/eqP->|]; first by exists (a, b); rewrite ey ew e1 e2.
by move: j; apply: (IH (flatten sy)); rewrite ?Ey ?Ew //= e3.
Qed.
Lemma ordered_agree k m x order y v : (m <= k)%N -> size order = (2 ^ m)%N -> all (fun i => i < 2 ^ m)%N order ->
  [seq (nth 0%N (row (2 ^ k.+1) m x) i %% 2 ^ k)%N | i <- order] =
    [seq (a %% 2 ^ k)%N | a <- row (2 ^ k.+1) m (x %% 2 ^ (k - m))] ->
  ordered_values order y = Some (flat (rowvals v k m (x %% 2 ^ (k - m)))) -> agree m y (rowvals v k m x).
Proof.
move=> hm h2 h3 h4 hy; have hw := ordered_valuesE v h3 h4.
have key i : (i < 2 ^ m)%N -> exists e, vget y i = Some e /\ vget (rowvals v k m x) i = Some e.
  by move=> hi; apply: (ordered_inj hy hw); exact: (order_all hm h2 h3 h4).
split; first exact: size_rowvals.
  have : ((2 ^ m).-1 < 2 ^ m)%N by rewrite prednK ?expn_gt0.
  by move=> /key[e [he _]]; have := vget_some he; rewrite prednK ?expn_gt0.
by move=> i /key[e [-> ->]].
Qed.
Lemma ordered_batch k m x order (ys : seq (seq (F * F))) (vs : seq (seq F)) : (m <= k)%N -> size order = (2 ^ m)%N -> all (fun i => i < 2 ^ m)%N order ->
  [seq (nth 0%N (row (2 ^ k.+1) m x) i %% 2 ^ k)%N | i <- order] =
    [seq (a %% 2 ^ k)%N | a <- row (2 ^ k.+1) m (x %% 2 ^ (k - m))] ->
  omap flatten (omapM (ordered_values order) ys) = Some (flatten [seq flat (rowvals v k m (x %% 2 ^ (k - m))) | v <- vs]) ->
  size ys = size vs /\ forall i, (i < size vs)%N -> agree m (nth [::] ys i) (rowvals (nth [::] vs i) k m x).
Proof.
move=> hm h2 h3 h4.
have sz (v : seq F) : size (flat (rowvals v k m (x %% 2 ^ (k - m)))) = (2 * 2 ^ m)%N.
  by have := ordered_size (ordered_valuesE v h3 h4); rewrite h2.
elim: ys vs => [|y ys IH] [|v vs] //=.
- by case=> /(congr1 size); rewrite size_cat sz /= => /esym/eqP; rewrite addn_eq0 muln_eq0 expn_eq0.
- case E : (ordered_values order y) => [s|] //=; case: (omapM _ ys) => [ss|] //= -[/(congr1 size)].
  by rewrite size_cat (ordered_size E) h2 /= => /eqP; rewrite addn_eq0 muln_eq0 expn_eq0.
case E : (ordered_values order y) => [s|] //=; move: IH; case: (omapM _ ys) => [ss|] //= IH -[/eqP].
rewrite eqseq_cat; last by rewrite sz (ordered_size E) h2.
case/andP=> /eqP e1 /eqP e2; rewrite e1 in E; have [-> IHa] := IH vs (congr1 Some e2); split=> // -[|i] hi /=; last exact: IHa.
exact: (ordered_agree hm h2 h3 h4 E).
Qed.

(** ** Folding *)
Lemma agree_pairs n s ip next alpha y w y' w' : agree n.+1 y w -> fold_pairs s ip next alpha y = Some y' ->
  fold_pairs s ip next alpha w = Some w' -> agree n y' w'.
Proof.
case=> h1 h2 h3; rewrite /fold_pairs => hy hw.
have e1 : (size w %/ 2 = 2 ^ n)%N by rewrite h1 expnS mulKn.
have e2 : (2 ^ n <= size y %/ 2)%N by rewrite leq_divRL // -expnSr.
have sw : size w' = (2 ^ n)%N by rewrite (omapM_size hw) size_iota.
have sy : (2 ^ n <= size y')%N by rewrite (omapM_size hy) size_iota.
split=> // i hi; rewrite (vget_nth (0, 0)) ?(leq_trans hi) // (vget_nth (0, 0)) ?sw //; congr Some.
have := @KzgProofs.omapM_nth _ _ _ _ _ i 0%N (0, 0) hy; rewrite size_iota => /(_ (leq_trans hi e2)).
have := @KzgProofs.omapM_nth _ _ _ _ _ i 0%N (0, 0) hw; rewrite size_iota e1 => /(_ hi).
rewrite !nth_iota ?e1 ?(leq_trans hi e2) // !add0n.
have hj : (2 * i + 1 < 2 ^ n.+1)%N by rewrite expnS; slia.
have hj' : (2 * i < 2 ^ n.+1)%N by rewrite expnS; slia.
by rewrite (h3 _ hj) (h3 _ hj') => -> [->].
Qed.
Lemma agree_rounds D alphas step n : forall x t y w x1 t1 y1 x2 t2 w2, agree n y w ->
  fold_rounds D alphas step n x t y = Some (x1, t1, y1) -> fold_rounds D alphas step n x t w = Some (x2, t2, w2) ->
  [/\ x1 = x2, t1 = t2 & agree 0 y1 w2].
Proof.
elim: n => [|n IH] x t y w x1 t1 y1 x2 t2 w2 ha /=; first by move=> [-> -> <-] [-> -> <-].
case: (vget D t) => //= d; case: (vget D t.+1) => //= d'; case: (vget d _) => //= e; case: (calculate_s _ _ _ d') => //= nx.
case: (calculate_s _ _ _ d) => //= sp; case: (vget alphas t) => //= alpha; case Ey : (fold_pairs _ _ _ _ y) => [y'|] //= hy.
case Ew : (fold_pairs _ _ _ _ w) => [w'|] //= hw; exact: IH (agree_pairs ha Ey Ew) hy hw.
Qed.
End Reading.

Section Sound.
Variable F : fieldType.
Variables (Dg : eqType) (hash_leaf : seq F -> Dg) (hash_node : Dg -> Dg -> Dg).
Variable unity_root : nat -> F.
Variable K : nat.
Hypothesis roots : roots_ok unity_root K.
Hypothesis two : (2%:R : F) != 0.
Variable r : nat.
Hypothesis hr : (r <= K)%N.
Notation dom j := (make_domain unity_root (2 ^ j)).
Notation ur j := (unity_root (2 ^ j)).
Notation D := (calculate_domain_set unity_root K r).
Notation root := (tr_root hash_leaf hash_node).
Notation fold_vec := (fold_vec unity_root).
Notation fold_many := (fold_many unity_root).
Notation points := (points unity_root).
Notation broken := (hash_broken hash_leaf hash_node).
Notation verify_rounds := (verify_rounds hash_leaf hash_node).

(** The converse of [verify_round]: what an accepted round says *)
Lemma round_inv (m t J J1 x : nat) (v b : seq F) alpha pre post final sl roots' y rp rps :
  (t + m < r)%N -> (J + t)%N = K -> (J - m)%N = J1.+1 -> (m < J)%N -> (x < 2 ^ J)%N -> size pre = t -> size b = m ->
  (sl != [::] -> t + m.+1 < r)%N ->
  let w := fold_vec J1 alpha (fold_many J b v) in let z := (x %% 2 ^ J1)%N in let lo := (z < 2 ^ J1.+1 %/ 4)%N in
  mp_position (rp_p rp) = z ->
  verify_rounds D (pre ++ b ++ alpha :: post) final (m.+1 :: sl) (root (leaf_tree [:: v] J.-1 m) :: roots') (rp :: rps)
    (ur J ^+ x) x t y = Some true ->
  broken \/ [/\ agree m y (rowvals v J.-1 m x),
    exists2 v', vget (rp_y rp) 0 = Some v' & (if lo then v'.1 else v'.2) = nth 0 w z &
    if sl is [::] then nth 0 w z = peval final (ur J1 ^+ z)
    else verify_rounds D (pre ++ b ++ alpha :: post) final sl roots' rps (ur J1 ^+ z) z (t + m.+1) (rp_y rp) = Some true].
Proof.
move=> htm hJ hJ1 hmJ hx hpre hb hnext w z lo hpos.
have [J' eJ] : exists J', J = J'.+1 by exists J.-1; rewrite prednK // (leq_ltn_trans _ hmJ).
have hmJ' : (m <= J')%N by rewrite -ltnS -eJ.
have hDt : vget D t = Some (dom J) by apply: vget_D => //; apply: leq_ltn_trans htm; rewrite leq_addr.
have hJK : (J1 < K)%N by move: hJ hJ1; clear=> *; slia.
have jk : (J' - m = J1)%N by move: hJ1; rewrite eJ subSn // => -[].
rewrite [verify_rounds _ _ _ _ _ _ _ _ _ _]/=; case: eqP => // hroot.
case/olP=> d; rewrite hDt => -[<-]; case/olP=> sp; rewrite calculate_sE // => -[<-]; rewrite [snd _]/= size_dom.
rewrite eJ in hx; have [order [ho1 so ho eo]] := correct_orderE hmJ' hx.
case/olP=> order'; rewrite /ipairs eJ ho1 => -[<-]; case/olP=> leaf hleaf; case: ifP => // hval.
rewrite eJ [predn _]/= in hroot; have [|[j [hj1 hj2 hj3]]] := opening hroot hval; first by left.
have hj : j = z by rewrite -hpos; apply: hj2; rewrite hpos /= jk ltn_mod expn_gt0.
have hag : agree m y (rowvals v J' m x).
  apply: (ordered_agree hmJ' so ho eo); rewrite hleaf hj3 nth_leaf_tree //= cats0 hj /z jk //.
rewrite subn1 [predn _]/=; case/olP=> -[[x1 t1] y1] hf.
have [x' [h1 h2 h3 h4 [h5 h6 h7]]] := @verify_step F unity_root K roots r hr m t J J1 x v _ b alpha pre post htm hJ hJ1 hmJ (eq_ind_r (fun j => x < 2 ^ j)%N hx eJ) hpre hb erefl.
move: h1; rewrite eJ [predn _]/= -eJ => h1; have [-> -> [_ _ /(_ 0%N isT) hy1]] := agree_rounds hag hf h1.
case/olP=> d2; rewrite h3 => -[<-]; rewrite size_dom h2; case/olP=> e; rewrite vget_dom ?ltn_mod ?expn_gt0 // => -[<-].
case/olP=> sp2; rewrite calculate_sE ?ltn_mod ?expn_gt0 // => -[<-]; rewrite [fst _]/= [snd _]/=.
case/olP=> ab; rewrite h7 => -[<-]; case/olP=> e2; rewrite h6 => -[<-]; case/olP=> v2; rewrite hy1 h5 => -[<-].
case/olP=> a2; rewrite h4 => -[<-]; rewrite [fst _]/= [snd _]/=.
rewrite interpolantE ?ltn_mod ?expn_gt0 // -/w; case/olP=> v' hv'.
have dv : (2 ^ J1 %| 2 ^ J1.+1)%N by rewrite dvdn_exp2l.
have ez : ((x %% 2 ^ J1.+1) %% 2 ^ J1)%N = z by rewrite modn_dvdm.
have esm : ((if (x %% 2 ^ J1.+1 < get_paired_index (x %% 2 ^ J1.+1) (2 ^ J1.+1)) then x %% 2 ^ J1.+1 else
   get_paired_index (x %% 2 ^ J1.+1) (2 ^ J1.+1)) %% (2 ^ J1.+1 %/ 2))%N = z.
  have -> : (2 ^ J1.+1 %/ 2 = 2 ^ J1)%N by rewrite expnS mulKn.
  by rewrite pair_lo ?ltn_mod ?expn_gt0 // modn_mod.
rewrite esm -/lo ez; case: eqP => // ev hrest; right; split.
- exact: hag.
- by exists v'.
case: sl hnext hrest => [|s sl] hnext.
  have -> : (2 ^ J1.+1 %/ 2 = 2 ^ J1)%N by rewrite expnS mulKn.
  by rewrite ez -/lo (ur_sqr roots _ hJK) ez -ev; case: eqP.
case/olP=> d3; rewrite (@vget_D F unity_root K r (t + m).+1 J1); last 2 first.
- by rewrite -addnS; apply: hnext.
- by move: hJ hJ1; clear=> *; slia.
case=> <-; rewrite size_dom ez; case/olP=> e3; rewrite vget_dom ?ltn_mod ?expn_gt0 // => -[<-]; by rewrite addnS.
Qed.
Lemma foldedE j alpha v : (j < K)%N -> folded unity_root j alpha v = fold_vec j alpha v.
Proof.
move=> hj; apply: eq_map => a; have hx : ur j.+1 ^+ a != 0 by rewrite expf_neq0 // (ur_neq0 roots).
cbv zeta; by rewrite -(line_atE two) // mulrC mulKf // mulf_neq0.
Qed.
Lemma folded_manyE alphas : forall j v, (size alphas <= j)%N -> (j <= K)%N -> folded_many unity_root j alphas v = fold_many j alphas v.
Proof.
elim: alphas => [|alpha alphas IH] [|j] v //= hs hj; by rewrite foldedE // IH // ltnW.
Qed.
Lemma precommit_root j m w c : (m < j)%N -> commits_to hash_leaf hash_node j m.+1 [:: w] c -> c = root (leaf_tree [:: w] j.-1 m).
Proof.
case: j => // j hm [hw [t]]; rewrite precommit_valuesE // => -[<-] ->; by [].
Qed.

Lemma round_positions_mod sl (rps : seq (round_proof F Dg)) : forall j x, round_positions j sl rps (x %% 2 ^ j) = round_positions j sl rps x.
Proof.
suff h : forall i j x, (j <= i)%N -> round_positions j sl rps (x %% 2 ^ i) = round_positions j sl rps x by move=> j x; apply: h.
elim: sl rps => [|s sl IH] [|rp rps] i j x hij //=.
have hi : (j - s <= i)%N by rewrite (leq_trans (leq_subr _ _)).
by rewrite IH // modn_dvdm // dvdn_exp2l.
Qed.
Lemma rounds_sound sl : forall ws rts rps t J x y pre alphas final, sl != [::] -> all (fun s => 0 < s)%N sl -> (t + sumn sl)%N = r ->
  (J + t)%N = K -> (x < 2 ^ J)%N -> size pre = t -> size alphas = sumn sl ->
  round_commitments hash_leaf hash_node J sl ws rts -> round_positions J sl rps x ->
  verify_rounds D (pre ++ alphas) final sl rts rps (ur J ^+ x) x t y = Some true ->
  broken \/ agree (head 0%N sl).-1 y (rowvals (head [::] ws) J.-1 (head 0%N sl).-1 x) /\
    consistent_at unity_root (Poly final) J sl alphas ws x.
Proof.
elim: sl => // -[|m] sl IH // [|v ws] [|rt rts] [|rp rps] t J x y pre alphas final _ hpos ht hJ hx hpre ha; try by case.
case=> hc hcs /andP[/eqP hp hps]; rewrite [head _ _]/= [head _ (v :: _)]/= [predn _.+1]/=.
rewrite [all _ _]/= in hpos; rewrite [sumn _]/= in ht ha.
have hmJ : (m < J)%N by move: ht hJ hr; clear=> *; slia.
have [J1 hJ1] : exists J1, (J - m)%N = J1.+1 by exists (J - m).-1; rewrite prednK // subn_gt0.
have hJm : (J - m.+1)%N = J1 by rewrite subnS hJ1.
rewrite hJm in hcs hps hp *; rewrite -/(round_commitments hash_leaf hash_node J1 sl ws rts) in hcs.
rewrite -/(round_positions J1 sl rps x) in hps; rewrite (precommit_root hmJ hc).
pose b := take m alphas; pose alpha := nth 0 alphas m; pose post := drop m.+1 alphas.
have hma : (m < size alphas)%N by rewrite ha addSn ltnS leq_addr.
have ea : alphas = b ++ alpha :: post by rewrite /b /alpha /post -drop_nth // cat_take_drop.
have hb : size b = m by rewrite size_takel // ltnW.
have et : take m.+1 alphas = rcons b alpha by rewrite (take_nth 0).
have htm : (t + m < r)%N by rewrite -ht; clear; slia.
have hnx : sl != [::] -> (t + m.+1 < r)%N.
  case: (sl) hpos ht => //= s sl' /andP[hs _] ht _; rewrite -ht; move: hs; clear=> *; slia.
rewrite {1}ea => hv; case: (round_inv htm hJ hJ1 hmJ hx hpre hb hnx hp hv) => [|[h1 [v' hv' ev'] h3]]; first by left.
have hJK : (J <= K)%N by rewrite -hJ leq_addr.
have ew : folded_many unity_root J (take m.+1 alphas) v = fold_vec J1 alpha (fold_many J b v).
  by rewrite et folded_manyE ?size_rcons ?hb // fold_many_rcons hb hJ1.
have -> : consistent_at unity_root (Poly final) J (m.+1 :: sl) alphas (v :: ws) x =
  (nth 0 (folded_many unity_root J (take m.+1 alphas) v) (x %% 2 ^ J1)%N =
     (if ws is w' :: _ then nth 0 w' (x %% 2 ^ J1)%N else (Poly final).[ur J1 ^+ (x %% 2 ^ J1)]) /\
   consistent_at unity_root (Poly final) J1 sl post ws (x %% 2 ^ J1)) by rewrite -hJm.
rewrite ew; case: sl IH hpos ht ha hcs hps hnx hv h3 => [|s sl] IH hpos ht ha hcs hps hnx hv h3.
  right; split=> //; split; last by case: (ws) hcs.
  by case: (ws) hcs => // _; rewrite h3 pevalE.
have eal : pre ++ b ++ alpha :: post = (pre ++ take m.+1 alphas) ++ post by rewrite et -catA cat_rcons.
rewrite eal in h3.
case: (IH ws rts rps (t + m.+1)%N J1 (x %% 2 ^ J1)%N (rp_y rp) (pre ++ take m.+1 alphas) post final) => //.
- by rewrite -ht addnA.
- by move: hJ hJm hmJ; clear=> *; slia.
- by rewrite ltn_mod expn_gt0.
- by rewrite size_cat hpre size_takel.
- by rewrite /post size_drop ha addKn.
- by rewrite round_positions_mod.
- by left.
case=> g1 g2; right; split=> //; split; last exact: g2.
case: (ws) hcs g1 => [|w' ws'] // _ [_ _ /(_ 0%N)]; rewrite expn_gt0 => /(_ isT).
have hs : (0 < s)%N by case/andP: hpos.
have hJ10 : (0 < J1)%N by move: hJm hJ ht hs hr; clear=> /= *; slia.
have eJ : J1 = J1.-1.+1 by rewrite prednK.
have hz : (x %% 2 ^ J1 < 2 ^ J1)%N by rewrite ltn_mod expn_gt0.
rewrite hv' (vget_nth (0, 0)) ?size_rowvals ?expn_gt0 // nth_rowvals ?expn_gt0 // -eJ.
have -> : nth 0%N (row (2 ^ J1) (head 0%N (s :: sl)).-1 (x %% 2 ^ J1)) 0 = (x %% 2 ^ J1)%N.
  by rewrite (@nth_row _ _ 0) // /row /= addn0 modn_small.
case=> ev; rewrite -ev' ev; have -> : (2 ^ J1.+1 %/ 4 = 2 ^ J1.-1)%N by rewrite eJ !expnS mulnA mulKn.
have hz' : (x %% 2 ^ J1 < 2 ^ J1.-1.+1)%N by rewrite -eJ.
rewrite /=; move: (x %% 2 ^ J1)%N hz' => z hz'; case: (pair_cases hz') => [[h4 [h5 _]]|[h4 [h5 _]]]; first by rewrite h4 h5.
by rewrite ltnNge h4 /= h5 subnK.
Qed.

(** ** The opened batches *)
Lemma check_initial_inv commitments order initial : check_initial hash_leaf hash_node commitments order initial = Some true ->
  forall key ip, om_get initial key = Some ip -> exists c leaf, [/\ om_get commitments key = Some c, mp_root (ip_p ip) = c,
    omap flatten (omapM (ordered_values order) (ip_values ip)) = Some leaf & mp_validate hash_leaf hash_node (ip_p ip) leaf].
Proof.
elim: initial => [|[k1 ip1] initial IH] //= /olP[c hc]; case: eqP => // hroot /olP[leaf hl]; case: ifP => // hv /IH {}IH key ip.
by case: eqP => [<- -[<-]|_ /IH //]; exists c, leaf.
Qed.
Lemma om_get_all (A : Type) (P : A -> bool) (s : omapT A) key a : all (fun e => P e.2) s -> om_get s key = Some a -> P a.
Proof. by elim: s => //= -[k1 b] s ih /andP[h1 /ih {}ih]; case: eqP => [_ [<-]|_ /ih]. Qed.

Lemma or_all (A : Prop) (B : Type) (P : B -> Prop) s : (forall b, List.In b s -> A \/ P b) -> A \/ forall b, List.In b s -> P b.
Proof.
elim: s => [|b s ih] h; first by right.
case: (h b) => [|h1|h1]; [by left|by left|]; case: ih => [c hc|h2|h2]; [by apply: h; right|by left|right].
by move=> c /= [<-|/h2].
Qed.
Lemma om_get_list (A : Type) (s : omapT A) key a : om_get s key = Some a -> List.In (key, a) s.
Proof. by elim: s => //= -[k1 b] s ih; case: eqP => [<- [->]|_ /ih h]; [left|right]. Qed.

Lemma combine_group_inv (theta : F) (value : nat * nat -> option F) (w : nat * nat -> F) ids acc z :
  combine_group theta value ids acc = Some z -> {in ids, forall id v, value id = Some v -> v = w id} ->
  {in ids, forall id, value id = Some (w id)}.
Proof.
rewrite /combine_group; elim: ids acc (0) => [|id ids ih] acc s //=; case/olP=> st /olP[v hv _] hrest h id'.
rewrite inE => /orP[/eqP->|hid]; first by rewrite hv; congr Some; apply: (h id _ v hv); rewrite mem_head.
case: st hrest => a b /ih; apply=> // i hi; apply: h; by rewrite inE hi orbT.
Qed.
Lemma combine_point_inv (theta : F) (value : nat * nat -> option F) (w : nat * nat -> F) x poly_ids U V z :
  size U = size V -> size poly_ids = size U -> combine_point theta poly_ids U V value x = Some z ->
  {in flatten poly_ids, forall id v, value id = Some v -> v = w id} ->
  [/\ {in flatten poly_ids, forall id, value id = Some (w id)}, all (fun v => (Poly v).[x] != 0) V &
      z = combination theta w x 0 (zip poly_ids (zip U V))].
Proof.
move=> hU hP hz h.
have [h1 h2] : {in flatten poly_ids, forall id, value id = Some (w id)} /\ all (fun v => (Poly v).[x] != 0) V.
  move: hz h; rewrite /combine_point; case E : (ofold _ _ _) => [st|] // _.
  move: (0, 1) st E; elim: poly_ids U V hU hP => [|ids poly_ids ih] [|u U] [|v V] //= [hU] [hP] st0 st.
  case/olP=> st1 /olP[q hq] /ogP[hv _] hrest h.
  have [|g1 g2] := ih U V hU hP st1 st hrest; first by move=> id hid; apply: h; rewrite mem_cat hid orbT.
  split; last by rewrite -pevalE hv g2.
  move=> id; rewrite mem_cat => /orP[hid|]; last exact: g1.
  apply: (combine_group_inv hq) => // i hi; apply: h; by rewrite mem_cat hi.
split=> //; move: hz; rewrite /combine_point -[X in (0, X)](expr0 theta) (@combine_pointE _ theta value w).
- by rewrite add0r => -[].
- by rewrite map_fst_zip // size_zip hU minnn -hU.
apply/(all_nthP ([::], (0, [::]))) => l; rewrite !size_zip hP hU !minnn => hl.
by rewrite !nth_zip ?size_zip ?hP ?hU ?minnn //=; apply: (allP h2); apply: mem_nth.
Qed.

Section Query.
Variables (k m : nat) (sl : seq nat).
Hypothesis eK : K = k.+1.
Hypothesis hm : (m <= k)%N.
Variables (commitments : omapT Dg) (batches : omapT (seq (seq F))).
Hypothesis committed : forall key c, om_get commitments key = Some c ->
  exists2 vs, om_get batches key = Some vs & commits_to hash_leaf hash_node K m.+1 vs c.
Variables (theta : F) (poly_ids : seq (seq (nat * nat))) (U : seq F) (V : seq (seq F)).
Hypothesis sizesU : size U = size V.
Hypothesis sizesP : size poly_ids = size U.
Notation value i := (fun id : nat * nat => nth 0 (nth [::] (odflt [::] (om_get batches id.1)) id.2) i).

Lemma combine_inv x order initial y w : (x < 2 ^ K)%N -> size order = (2 ^ m)%N -> all (fun i => i < 2 ^ m)%N order ->
  [seq (nth 0%N (row (2 ^ k.+1) m x) i %% 2 ^ k)%N | i <- order] =
    [seq (a %% 2 ^ k)%N | a <- row (2 ^ k.+1) m (x %% 2 ^ (k - m))] ->
  all (fun e => mp_position (ip_p e.2) == x %% 2 ^ (k - m))%N initial ->
  check_initial hash_leaf hash_node commitments order initial = Some true ->
  combine theta poly_ids U V initial (points K m x) (ipairs K m x) = Some y -> agree m y (rowvals w k m x) ->
  broken \/ forall i, (i < 2 ^ K)%N -> (i == x %[mod 2 ^ (k - m)])%N ->
    [/\ {in flatten poly_ids, forall id, exists2 vs, om_get batches id.1 = Some vs & (id.2 < size vs)%N},
        all (fun v => (Poly v).[ur K ^+ i] != 0) V &
        nth 0 w i = combination theta (value i) (ur K ^+ i) 0 (zip poly_ids (zip U V))].
Proof.
move=> hx so ho eo hpos hci hc hag.
(* every opened batch is a leaf of its tree *)
have step key ip : om_get initial key = Some ip -> broken \/ exists vs, [/\ om_get batches key = Some vs,
    size (ip_values ip) = size vs & forall i, (i < size vs)%N -> agree m (nth [::] (ip_values ip) i) (rowvals (nth [::] vs i) k m x)].
  move=> hk; have [c [leaf [h1 h2 h3 h4]]] := check_initial_inv hci hk.
  have [vs hb [hvs [t ht hct]]] := committed h1; rewrite eK in hvs ht.
  move: ht; rewrite precommit_valuesE // => -[et]; rewrite hct -et in h2.
  have [|[j [g1 g2 g3]]] := opening h2 h4; first by left.
  have hp := eqP (@om_get_all _ (fun p => mp_position (ip_p p) == x %% 2 ^ (k - m))%N _ _ _ hpos hk).
  have ej : j = (x %% 2 ^ (k - m))%N by rewrite -hp; apply: g2; rewrite hp ltn_mod expn_gt0.
  right; exists vs; rewrite g3 ej (nth_leaf_tree vs) ?ltn_mod ?expn_gt0 // in h3.
  have [e1 e2] := ordered_batch hm so ho eo h3; by [].
have [|{}step] : broken \/ forall key ip, om_get initial key = Some ip -> exists vs, [/\ om_get batches key = Some vs,
    size (ip_values ip) = size vs & forall i, (i < size vs)%N -> agree m (nth [::] (ip_values ip) i) (rowvals (nth [::] vs i) k m x)].
- have [|h|h] := @or_all broken _ (fun e : nat * initial_proof F Dg => om_get initial e.1 = Some e.2 -> exists vs, [/\ om_get batches e.1 = Some vs,
    size (ip_values e.2) = size vs & forall i, (i < size vs)%N -> agree m (nth [::] (ip_values e.2) i) (rowvals (nth [::] vs i) k m x)]) initial.
  + move=> -[key ip] _ /=; case E : (om_get initial key) => [ip'|]; last by right.
    case: (step _ _ E) => [|h]; [by left|right=> -[e]; by rewrite -e].
  + by left.
  by right=> key ip hk; apply: (h (key, ip)) => //; apply: om_get_list.
- by left.
right=> i hi him.
have [j hj ej] : exists2 j, (j < 2 ^ m)%N & (nth 0%N (row (2 ^ k.+1) m x) j %% 2 ^ k)%N = (i %% 2 ^ k)%N.
  have : (i %% 2 ^ k \in [seq b %% 2 ^ k | b <- row (2 ^ k.+1) m x])%N.
    by rewrite mem_row // ltn_mod expn_gt0 /= modn_dvdm // dvdn_exp2l // leq_subr.
  case/(nthP 0%N)=> j; rewrite size_map size_row => hj; rewrite (nth_map 0%N) ?size_row // => e; by exists j.
set a := nth 0%N (row (2 ^ k.+1) m x) j in ej.
have ha : (a < 2 ^ k.+1)%N by rewrite /a nth_row_lt.
have [_ sy hy] := hag; have := hy _ hj; rewrite (vget_nth (0, 0)) ?(leq_trans hj) // (vget_nth (0, 0)) ?size_rowvals // nth_rowvals // -/a => -[{}hy].
have := @KzgProofs.omapM_nth _ _ _ _ _ j 0%N (0, 0) hc; rewrite size_iota size_map size_row => /(_ hj); rewrite nth_iota // add0n.
rewrite (vget_nth (0, 0)) ?size_map ?size_offs // (vget_nth (0, 0)%N) ?size_map ?size_offs // {1 2}/obnd.
rewrite nth_points // nth_ipairs // [fst _]/= [snd _]/= [fst (_, _)]/= [snd (_, _)]/= eK -/a -eK.
have -> : (if (a < get_paired_index a (2 ^ K))%N then (ur K ^+ a, ur K ^+ get_paired_index a (2 ^ K)) else
     (ur K ^+ get_paired_index a (2 ^ K), ur K ^+ a)) = (ur K ^+ (a %% 2 ^ k), ur K ^+ (a %% 2 ^ k + 2 ^ k)).
  have -> : get_paired_index a (2 ^ K) = get_paired_index a (2 ^ k.+1) by rewrite eK.
  rewrite pair_lt //; case: (pair_cases ha) => -[h [-> ->]]; first by rewrite h.
  by rewrite ltnNge h /= subnK.
have E (sel : F * F -> F) z : (forall v, sel (pair_at v (2 ^ k) a) = nth 0 v i) ->
   combine_point theta poly_ids U V (fun id => obnd (om_get initial id.1) (fun ip => obnd (vget (ip_values ip) id.2) (fun vs => omap sel (vget vs j)))) (ur K ^+ i) = Some z ->
   [/\ {in flatten poly_ids, forall id, exists2 vs, om_get batches id.1 = Some vs & (id.2 < size vs)%N},
        all (fun v => (Poly v).[ur K ^+ i] != 0) V & z = combination theta (value i) (ur K ^+ i) 0 (zip poly_ids (zip U V))].
  move=> hsel hz.
  have get id v : obnd (om_get initial id.1) (fun ip => obnd (vget (ip_values ip) id.2) (fun vs => omap sel (vget vs j))) = Some v ->
     (exists2 vs, om_get batches id.1 = Some vs & (id.2 < size vs)%N) /\ v = value i id.
    case/olP=> ip hip /olP[vs hvs]; have [ws [b1 b2 b3]] := step _ _ hip.
    have hlt : (id.2 < size ws)%N by rewrite -b2 (vget_some hvs).
    have [_ _ /(_ _ hj)] := b3 _ hlt; rewrite (nth_vget [::] hvs) => ->.
    rewrite (vget_nth (0, 0)) ?size_rowvals // nth_rowvals // -/a /= hsel => -[<-]; rewrite b1; split=> //; by exists ws.
  have [|g1 g2 g3] := combine_point_inv (w := value i) sizesU sizesP hz; first by move=> id _ v /get[].
  by split=> // id /g1/get[].
case/olP=> y0 hy0 /olP[y1 hy1] [ey]; rewrite hy in ey.
have hi' : (i < 2 ^ k.+1)%N by rewrite -eK.
rewrite ej in hy0 hy1 ey; rewrite /pair_at ej in ey.
case: (pair_cases hi') => [[_ [e _]]|[le [e _]]]; rewrite e in hy0 hy1 ey.
  have [|g1 g2 g3] := E fst _ _ hy0; first by move=> v; rewrite /pair_at ej e.
  by split=> //; rewrite -g3; case: ey => -> _.
rewrite subnK // in hy1 ey; have [|g1 g2 g3] := E snd _ _ hy1; first by move=> v; rewrite /pair_at ej e subnK.
by split=> //; rewrite -g3; case: ey => _ ->.
Qed.

(** ** One query *)
Variable modulus : nat.
Hypothesis hsl : sl != [::].
Hypothesis hmsl : head 0%N sl = m.+1.
Hypothesis hall : all (fun s => 0 < s)%N sl.
Hypothesis hsum : sumn sl = r.
Variables (lambda gp maxdeg : nat) (ug : bool).
Notation P := (FriParams lambda ug gp maxdeg D r sl).
Notation D0 := (dom K).
Notation query_point c := (c ^+ ((modulus - 1) %/ 2 ^ K)).
Lemma query_sound (Pw : Type) (proof : fri_proof F Dg Pw) q c alphas ws : size alphas = r ->
  round_commitments hash_leaf hash_node K sl ws (pf_roots proof) ->
  positions K sl q (index (query_point c) D0) ->
  verify_query hash_leaf hash_node modulus P commitments theta poly_ids U V alphas proof q c = Some true ->
  query_point c \in D0 /\ let x := index (query_point c) D0 in
  (broken \/ (forall i, (i < 2 ^ K)%N -> (i == x %[mod 2 ^ (k - m)])%N ->
    [/\ {in flatten poly_ids, forall id, exists2 vs, om_get batches id.1 = Some vs & (id.2 < size vs)%N},
        all (fun v => (Poly v).[ur K ^+ i] != 0) V &
        nth 0 (head [::] ws) i = combination theta (value i) (ur K ^+ i) 0 (zip poly_ids (zip U V))]) /\
    consistent_at unity_root (Poly (pf_final proof)) K sl alphas ws x).
Proof.
move=> ha hw /andP[hp1 hp2]; rewrite /verify_query [fp_D _]/= [fp_step_list _]/=.
have hr0 : (0 < r)%N by rewrite -hsum; case: (sl) hsl hall => //= s l _ /andP[hs _]; rewrite addn_gt0 hs.
case/olP=> d0; rewrite (@vget_D F unity_root K r 0 K) ?addn0 // => -[<-]; rewrite size_dom.
case/olP=> step; have -> : vget sl 0 = Some m.+1 by case: (sl) hsl hmsl => //= a l _ ->.
case=> <-; case: (boolP (query_point c \in D0)) => [hc|hc]; last first.
  have -> : index (query_point c) D0 = (2 ^ K)%N by rewrite memNindex ?size_dom.
  suff -> : calculate_s (query_point c) (2 ^ K) m.+1 D0 = None by [].
  have e : vget D0 (2 ^ K) = None by apply: vget_None; rewrite size_dom.
  rewrite /calculate_s size_dom /coset_indices.
  have [s' ->] := index_loop_head m.+1 (2 ^ K) (2 ^ m.+1 %/ 2) (2 ^ K %/ (2 * 2)) 1 (2 ^ K) [::].
  by rewrite ltn0Sn {1}/obnd [map _ _]/= [omapM _ (_ :: _)]/= e.
have hx : (index (query_point c) D0 < 2 ^ K)%N by rewrite -[X in (_ < X)%N](size_dom unity_root) index_mem.
have ex : query_point c = ur K ^+ index (query_point c) D0 by rewrite -nth_dom // nth_index.
move=> hv; split=> //; set x := index _ _; move: hv; rewrite -/x in hx ex hp1 hp2 *; rewrite ex.
case/olP=> sp; rewrite calculate_sE // => -[<-]; rewrite [fst _]/= [snd _]/=.
have hx' : (x < 2 ^ k.+1)%N by rewrite -eK.
have [order [ho1 so ho eo]] := correct_orderE hm hx'.
rewrite -eK in ho1.
case/olP=> order'; rewrite {1}/ipairs ho1 => -[<-]; case/olP=> -[] // hci; case/olP=> y hy hrounds.
have ek : (K - m.+1 = k - m)%N by rewrite eK subSS.
rewrite hmsl ek in hp1.
have := @rounds_sound sl ws (pf_roots proof) (qp_rounds q) 0 K x y [::] alphas (pf_final proof) hsl hall hsum (addn0 K) hx erefl (etrans ha (esym hsum)) hw hp2 hrounds.
case=> [|[hag hcons]]; first by left.
have eKp : K.-1 = k by rewrite eK.
rewrite hmsl eKp [predn _]/= in hag.
case: (combine_inv hx so ho eo hp1 hci hy hag) => [|h]; [by left|right]; by split.
Qed.
End Query.
End Sound.
