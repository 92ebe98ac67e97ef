(** The rounds of FRI: honest prover against verifier. *)
From mathcomp Require Import all_ssreflect all_algebra.
From Verif.Model Require Import Base OrderedMap Domain FoldPolynomial MerkleTree Quotient Fri.
From Verif.Spec Require Import FriSpec.
From Verif.Proofs Require Import NatTac FieldTac PermProofs KzgProofs PackingProofs MerkleProofs DomainProofs FoldProofs FriIndex FriLayout FriFold.
Set Implicit Arguments.
Unset Strict Implicit.
Unset Printing Implicit Defensive.
Import GRing.Theory.
Local Open Scope ring_scope.

Section Rounds.
Variable F : fieldType.
Variables (Dg : eqType) (hash_leaf : seq F -> Dg) (hash_node : Dg -> Dg -> Dg).
Variables (T : Type) (absorb : T -> Dg -> T) (challenge : T -> F * T).
Variable unity_root : nat -> F.
Variable K : nat.
Hypothesis roots : roots_ok unity_root K.
Hypothesis two : (2%:R : F) != 0.
Variable r : nat.
Hypothesis hr : (r <= K)%N.
Notation dom j := (make_domain unity_root (2 ^ j)).
Notation ur j := (unity_root (2 ^ j)).
Notation D := (calculate_domain_set unity_root K r).
Notation root := (tr_root hash_leaf hash_node).
Notation fold_vec := (fold_vec unity_root).
Notation fold_many := (fold_many unity_root).
Notation vals := (vals unity_root).
Notation points := (points unity_root).
Notation commit_phase := (commit_phase hash_leaf hash_node absorb challenge unity_root).
Notation prove_rounds := (prove_rounds hash_leaf hash_node).
Notation verify_rounds := (verify_rounds hash_leaf hash_node).

Lemma vget_D t J : (t < r)%N -> (J + t)%N = K -> vget D t = Some (dom J).
Proof.
move=> ht e; rewrite (vget_nth [::]) ?size_map ?size_iota // (nth_map 0%N) ?size_iota // nth_iota // add0n -e addnK.
by [].
Qed.

Lemma interpolantE k a (v : seq F) alpha : (a < 2 ^ k.+1)%N ->
  line_at (if (a < get_paired_index a (2 ^ k.+1))%N then ur k.+1 ^+ a else ur k.+1 ^+ get_paired_index a (2 ^ k.+1))
    (pair_at v (2 ^ k) a).1 (pair_at v (2 ^ k) a).2 alpha = nth 0 (fold_vec k alpha v) (a %% 2 ^ k)%N.
Proof.
move=> ha; rewrite nth_fold_vec ?ltn_mod ?expn_gt0 //; congr line_at.
by rewrite -(pair_lo ha); case: ifP.
Qed.
Lemma nth_rowvals (v : seq F) k m x i : (i < 2 ^ m)%N -> nth (0, 0) (rowvals v k m x) i = pair_at v (2 ^ k) (nth 0%N (row (2 ^ k.+1) m x) i).
Proof. by move=> hi; rewrite (nth_map 0%N) ?size_row. Qed.
Lemma nth_ipairs j m x i : (i < 2 ^ m)%N -> nth (0, 0)%N (ipairs j m x) i = (nth 0%N (row (2 ^ j) m x) i, get_paired_index (nth 0%N (row (2 ^ j) m x) i) (2 ^ j)).
Proof. by move=> hi; rewrite (nth_map 0%N) ?size_row. Qed.
Lemma nth_points j m x i : (i < 2 ^ m)%N -> nth (0, 0) (points j m x) i =
  (ur j ^+ nth 0%N (row (2 ^ j) m x) i, ur j ^+ get_paired_index (nth 0%N (row (2 ^ j) m x) i) (2 ^ j)).
Proof. by move=> hi; rewrite (nth_map 0%N) ?size_row. Qed.
Lemma nth_row_lt k m x i : (i < 2 ^ m)%N -> (nth 0%N (row (2 ^ k.+1) m x) i < 2 ^ k.+1)%N.
Proof. by move=> hi; apply: (allP (row_lt k m x)); rewrite mem_nth // size_row. Qed.

(** Reading an entry of a pair vector by order of indices *)
Lemma pair_atE (v : seq F) k b : (b < 2 ^ k.+1)%N ->
  (if (b < get_paired_index b (2 ^ k.+1))%N then (nth 0 v b, nth 0 v (get_paired_index b (2 ^ k.+1)))
   else (nth 0 v (get_paired_index b (2 ^ k.+1)), nth 0 v b)) = pair_at v (2 ^ k) b.
Proof.
move=> hb; rewrite /pair_at pair_lt //; case: (pair_cases hb) => -[h [-> ->]]; first by rewrite h.
by rewrite ltnNge h /= subnK.
Qed.

Lemma fold_pairsE k n m x alpha v : (n < m)%N -> (n <= k)%N -> (x < 2 ^ k.+2)%N ->
  fold_pairs (points k.+2 m x) (ipairs k.+2 m x) (ipairs k.+1 m (x %% 2 ^ k.+1)) alpha (rowvals v k.+1 n.+1 x) =
  Some (rowvals (fold_vec k.+1 alpha v) k n (x %% 2 ^ k.+1)).
Proof.
move=> hnm hnk hx; rewrite /fold_pairs size_rowvals.
have -> : (2 ^ n.+1 %/ 2 = 2 ^ n)%N by rewrite expnS mulKn.
rewrite (omapM_some (g := fun i => nth (0, 0) (rowvals (fold_vec k.+1 alpha v) k n (x %% 2 ^ k.+1)) i)); last first.
  move=> i; rewrite mem_iota add0n => /andP[_ hi].
  have h21 : (2 * i + 1 < 2 ^ n.+1)%N by rewrite expnS; slia.
  have h20 : (2 * i < 2 ^ n.+1)%N by apply: leq_ltn_trans h21; rewrite leq_addr.
  have hm : (2 ^ n.+1 <= 2 ^ m)%N by rewrite leq_exp2l.
  have him : (i < 2 ^ m)%N by rewrite (leq_trans hi) // leq_exp2l // ltnW.
  have E j : (j < 2 ^ n.+1)%N ->
      obnd (vget (ipairs k.+2 m x) j) (fun ab => obnd (vget (points k.+2 m x) j) (fun e => obnd (vget (rowvals v k.+1 n.+1 x) j) (fun w =>
        Some (line_at (if (ab.1 < ab.2)%N then e.1 else e.2) w.1 w.2 alpha)))) =
      Some (nth 0 (fold_vec k.+1 alpha v) (nth 0%N (row (2 ^ k.+2) n.+1 x) j %% 2 ^ k.+1)%N).
    move=> hj; have hjm := leq_trans hj hm.
    rewrite (vget_nth (0, 0)%N) ?size_map ?size_offs // (vget_nth (0, 0)) ?size_map ?size_offs //.
    rewrite (vget_nth (0, 0)) ?size_rowvals // nth_rowvals //.
    rewrite nth_ipairs // nth_points // (nth_row _ _ hnm hj) {1 2 3}/obnd [fst _]/= [snd _]/= [fst _]/= [snd _]/=.
    by rewrite interpolantE // nth_row_lt.
  rewrite (E _ h20) (E _ h21) {1 2}/obnd.
  rewrite (vget_nth (0, 0)%N) ?size_map ?size_offs // {1}/obnd nth_ipairs //.
  rewrite (nth_row _ _ (ltnW hnm) hi) nth_rowvals // [fst _]/= [snd _]/=.
  have [-> ->] := @row_pairs k.+1 n x i hi hnk.
  set b := nth 0%N (row (2 ^ k.+1) n (x %% 2 ^ k.+1)) i; have hb : (b < 2 ^ k.+1)%N by apply: nth_row_lt.
  have eb : b = ((x + nth 0%N (offs (2 ^ k.+1) n) i) %% 2 ^ k.+1)%N.
    by rewrite /b /row (nth_map 0%N) ?size_offs // modnDml.
  have dv : (2 ^ k.+1 %| 2 ^ k.+2)%N by rewrite dvdn_exp2l.
  rewrite !modn_dvdm // -eb; have -> : ((x + nth 0%N (offs (2 ^ k.+1) n) i + 2 ^ k.+1.-1) %% 2 ^ k.+1)%N = get_paired_index b (2 ^ k.+1).
    by rewrite /get_paired_index eb n_half modnDml.
  by congr Some; apply: pair_atE.
congr Some; apply: (@eq_from_nth _ (0, 0)); first by rewrite size_map size_iota size_rowvals.
move=> i; rewrite size_map size_iota => hi; by rewrite (nth_map 0%N) ?size_iota // nth_iota.
Qed.

Lemma fold_rounds_ok m n : forall t J x v pre alphas post, (n <= m)%N -> (t + n < r)%N -> (J + t)%N = K ->
  size pre = t -> size alphas = n ->
  exists2 x', fold_rounds D (pre ++ alphas ++ post) m.+1 n x t (rowvals v J.-1 n (x %% 2 ^ J)) =
    Some (x', t + n, rowvals (fold_many J alphas v) (J - n).-1 0 (x %% 2 ^ (J - n)))%N & (x' %% 2 ^ (J - n) = x %% 2 ^ (J - n))%N.
Proof.
elim: n => [|n ih] t J x v pre alphas post hnm htr hJ hpre hal.
  by case: alphas hal => // _; exists x; rewrite /= ?addn0 ?subn0.
case: alphas hal => // alpha alphas [hal].
have [J0 eJ] : exists J0, J = J0.+2 by case: J hJ => [|[|J0]] hJ; [exfalso; move: hJ hr htr; clear=> *; slia|exfalso; move: hJ hr htr; clear=> *; slia|exists J0].
rewrite eJ [fold_rounds _ _ _ _ _ _ _]/=.
rewrite (@vget_D t J) ?(@vget_D t.+1 J.-1); try slia.
rewrite eJ {1 2}/obnd [predn _]/= !size_dom vget_dom ?ltn_mod ?expn_gt0 // {1}/obnd.
have hK1 : (J0.+1 < K)%N by slia.
rewrite (ur_sqr roots _ hK1) !calculate_sE ?ltn_mod ?expn_gt0 // {1 2}/obnd.
have -> : vget (pre ++ alpha :: alphas ++ post) t = Some alpha by rewrite (vget_nth 0) ?nth_cat ?size_cat hpre ?ltnn ?subnn //= ; slia.
rewrite {1}/obnd [fst _]/= [snd _]/= [snd _]/=.
have hnJ : (n <= J0)%N by move: hJ hr htr; rewrite eJ; clear=> *; slia.
rewrite fold_pairsE ?ltn_mod ?expn_gt0 //.
rewrite {1}/obnd; have dv : (2 ^ J0.+1 %| 2 ^ J0.+2)%N by rewrite dvdn_exp2l.
have htr' : (t.+1 + n < r)%N by rewrite addSnnS.
have hJ' : (J0.+1 + t.+1)%N = K by slia.
have hp' : size (rcons pre alpha) = t.+1 by rewrite size_rcons hpre.
have [x' h1 h2] := ih t.+1 J0.+1 (x %% 2 ^ J0.+2)%N (fold_vec J0.+1 alpha v) (rcons pre alpha) alphas post (ltnW hnm) htr' hJ' hp' hal.
have dv2 : (2 ^ (J0.+1 - n) %| 2 ^ J0.+2)%N by rewrite dvdn_exp2l // leq_subLR -addSnnS leq_addl.
exists x'; last by rewrite subSS h2 modn_dvdm.
by move: h1; rewrite cat_rcons addSnnS subSS [predn _]/= => ->; rewrite (modn_dvdm _ dv2).
Qed.

(** ** The prover's values *)
Lemma value_points k (c : seq F) a : (k.+1 <= K)%N -> (a < 2 ^ k.+1)%N ->
  (peval c (if (a < get_paired_index a (2 ^ k.+1))%N then ur k.+1 ^+ a else ur k.+1 ^+ get_paired_index a (2 ^ k.+1)),
   peval c (if (a > get_paired_index a (2 ^ k.+1))%N then ur k.+1 ^+ a else ur k.+1 ^+ get_paired_index a (2 ^ k.+1))) =
  pair_at (fft (dom k.+1) c) (2 ^ k) a.
Proof.
move=> hk ha; rewrite /pair_at pair_lt // pair_gt //.
have h1 : (a %% 2 ^ k < 2 ^ k)%N by rewrite ltn_mod expn_gt0.
have h2 : (a %% 2 ^ k < 2 ^ k.+1)%N by rewrite (leq_trans h1) // leq_exp2l.
have h3 : (a %% 2 ^ k + 2 ^ k < 2 ^ k.+1)%N by rewrite n_double ltn_add2r.
rewrite !nth_fft //; case: (pair_cases ha) => -[h [-> ->]]; first by rewrite h.
by rewrite ltnNge h /= subnK.
Qed.
Lemma round_valueE f k v m x : (k.+1 <= K)%N -> vals f k.+1 v ->
  omapM (fun e : (F * F) * (nat * nat) => round_value f e.1 e.2) (zip (points k.+1 m x) (ipairs k.+1 m x)) = Some (rowvals v k m x).
Proof.
move=> hk hf; rewrite /FriFold.points /ipairs zip_map omapM_map; apply: omapM_some => a ha.
have hlt := allP (row_lt k m x) a ha; rewrite [fst _]/= [snd _]/=.
case: f hf => [c [_ _ ->]|u [hu ->]]; rewrite /round_value /=.
  by rewrite value_points.
rewrite pair_min // pair_max //.
have h1 : (a %% 2 ^ k < 2 ^ k)%N by rewrite ltn_mod expn_gt0.
by rewrite !(vget_nth 0) ?hu // ?n_double ?ltn_add2r // (leq_trans h1) // leq_addr.
Qed.

(** ** The commit phase *)
Lemma fold_many_cat J (a b : seq F) v : fold_many J (a ++ b) v = fold_many (J - size a) b (fold_many J a v).
Proof. by elim: a J v => [|x a ih] J v /=; rewrite ?subn0 // ih -subn1 -subnDA add1n. Qed.
Lemma fold_many_rcons J (b : seq F) alpha v : fold_many J (rcons b alpha) v = fold_vec (J - size b).-1 alpha (fold_many J b v).
Proof. by rewrite -cats1 fold_many_cat. Qed.
Lemma fold_steps_ok n : forall f v t J tr, (t + n <= r)%N -> (J + t)%N = K -> vals f J v ->
  exists alphas f' tr', [/\ fold_steps challenge D n f t tr = Some (alphas, f', tr'), challenges challenge n tr = (alphas, tr'),
    size alphas = n & vals f' (J - n) (fold_many J alphas v)].
Proof.
elim: n => [|n ih] f v t J tr htr hJ hf; first by exists [::], f, tr; rewrite subn0.
rewrite /=; case: (challenge tr) => alpha tr1.
have hJ0 : (0 < J)%N by move: hJ hr htr; clear=> *; slia.
case: J hJ hf hJ0 => // J hJ hf _.
rewrite (@vget_D t J.+1) //; last by move: htr; clear=> *; slia.
have hJK : (J < K)%N by move: hJ; clear=> *; slia.
have [f' hf' vf'] := fold_polyE roots two alpha hJK hf.
rewrite {1}/obnd hf' {1}/obnd.
have htr' : (t.+1 + n <= r)%N by rewrite addSnnS.
have hJ' : (J + t.+1)%N = K by rewrite addnS.
have [al [f'' [tr' [-> -> sz vf'']]]] := ih f' _ t.+1 J tr1 htr' hJ' vf'.
by exists (alpha :: al), f'', tr'; rewrite /= sz.
Qed.

Definition leaf_tree (vs : seq (seq F)) (k m : nat) : tree F :=
  Tree (k - m) [seq flatten [seq flat (rowvals v k m x) | v <- vs] | x <- iota 0 (2 ^ (k - m))].
Lemma nth_leaf_tree vs k m x : (x < 2 ^ (k - m))%N ->
  nth [::] (tr_leaves (leaf_tree vs k m)) x = flatten [seq flat (rowvals v k m x) | v <- vs].
Proof. by move=> hx; rewrite (nth_map 0%N) ?size_iota // nth_iota. Qed.
Lemma precommitE f k m v : (m <= k)%N -> vals f k.+1 v -> precommit unity_root f (dom k.+1) m.+1 = Some (leaf_tree [:: v] k m).
Proof.
move=> hm hf; rewrite /precommit (vals_on hf) {1}/obnd size_dom; apply: precommit_valuesE => //=.
by rewrite (vals_size hf) eqxx.
Qed.

Lemma verify_step (m t J J1 x : nat) (v u b : seq F) alpha pre post : (t + m < r)%N -> (J + t)%N = K -> (J - m)%N = J1.+1 ->
  (m < J)%N -> (x < 2 ^ J)%N -> size pre = t -> size b = m -> u = fold_many J b v ->
  let z := (x %% 2 ^ J1.+1)%N in
  exists x', [/\ fold_rounds D (pre ++ b ++ alpha :: post) m.+1 m x t (rowvals v J.-1 m x) = Some (x', t + m, rowvals u J1 0 z)%N,
   (x' %% 2 ^ J1.+1)%N = z, vget D (t + m) = Some (dom J1.+1), vget (pre ++ b ++ alpha :: post) (t + m) = Some alpha
   & [/\ vget (rowvals u J1 0 z) 0 = Some (pair_at u (2 ^ J1) z),
      vget (points J1.+1 m z) 0 = Some (ur J1.+1 ^+ z, ur J1.+1 ^+ get_paired_index z (2 ^ J1.+1)) &
      vget (ipairs J1.+1 m z) 0 = Some (z, get_paired_index z (2 ^ J1.+1))]].
Proof.
move=> htm hJ hJ1 hmJ hx hpre hb -> z.
have [x' h1 h2] := @fold_rounds_ok m m t J x v pre b (alpha :: post) (leqnn m) htm hJ hpre hb.
move: h1 h2; rewrite hJ1 (modn_small hx) -/z => h1 h2; exists x'; split=> //.
- by apply: vget_D => //; rewrite -hJ -hJ1 addnC -addnA subnKC ?(ltnW hmJ) // addnC.
- have sz : size (pre ++ b) = (t + m)%N by rewrite size_cat hpre hb.
  rewrite catA (vget_nth 0); first by rewrite nth_cat sz ltnn subnn.
  by rewrite size_cat sz /= addnS ltnS leq_addr.
have z0 j : nth 0%N (row (2 ^ J1.+1) j z) 0 = z.
  rewrite (@nth_row _ j 0) // /row /= addn0 modn_small // /z ltn_mod expn_gt0 //.
split.
- by rewrite (vget_nth (0, 0)) ?size_rowvals // nth_rowvals // z0.
- by rewrite (vget_nth (0, 0)) ?size_map ?size_offs ?expn_gt0 // nth_points ?expn_gt0 // z0.
- by rewrite (vget_nth (0, 0)%N) ?size_map ?size_offs ?expn_gt0 // nth_ipairs ?expn_gt0 // z0.
Qed.


Lemma verify_round (m t J J1 x : nat) (v b : seq F) alpha pre post final sl roots' y rps v' :
  (t + m < r)%N -> (J + t)%N = K -> (J - m)%N = J1.+1 -> (m < J)%N -> (x < 2 ^ J)%N -> size pre = t -> size b = m ->
  (sl != [::] -> t + m.+1 < r)%N ->
  let tree := leaf_tree [:: v] J.-1 m in let i := (x %% 2 ^ (J.-1 - m))%N in
  let w := fold_vec J1 alpha (fold_many J b v) in let z := (x %% 2 ^ J1)%N in let lo := (z < 2 ^ J1.+1 %/ 4)%N in
  vget y 0 = Some v' -> (if lo then v'.1 else v'.2) = nth 0 w z ->
  verify_rounds D (pre ++ b ++ alpha :: post) final (m.+1 :: sl) (root tree :: roots')
    (RoundProof y (MerkleProof (root tree) i (merkle_path hash_node (J.-1 - m) (tr_leaf hash_leaf tree) i)) :: rps)
    (ur J ^+ x) x t (rowvals v J.-1 m x) =
  if sl is [::] then ocheck nth 0 w z == peval final (ur J1 ^+ z); ocheck (if lo then v'.2 else v'.1) == peval final (- ur J1 ^+ z); Some true
  else verify_rounds D (pre ++ b ++ alpha :: post) final sl roots' rps (ur J1 ^+ z) z (t + m.+1) y.
Proof.
move=> htm hJ hJ1 hmJ hx hpre hb hnext tree i w z lo hy hv'.
have [J' eJ] : exists J', J = J'.+1 by exists J.-1; rewrite prednK // (leq_ltn_trans _ hmJ).
have hmJ' : (m <= J')%N by rewrite -ltnS -eJ.
have hDt : vget D t = Some (dom J) by apply: vget_D => //; apply: leq_ltn_trans htm; rewrite leq_addr.
have hJK : (J1 < K)%N by move: hJ hJ1; clear=> *; slia.
rewrite [LHS]/= eqxx hDt {1}/obnd calculate_sE // {1}/obnd [fst _]/= [snd _]/= size_dom.
rewrite {1}/ipairs eJ; rewrite eJ in hx.
have [order [-> so ho eo]] := correct_orderE hmJ' hx.
rewrite {1}/obnd [predn _]/= (ordered_valuesE _ ho eo) {1}/obnd.
have hi : (i < 2 ^ (J' - m))%N by rewrite /i eJ ltn_mod expn_gt0.
have -> : mp_validate hash_leaf hash_node (MerkleProof (root tree) i (merkle_path hash_node (J' - m) (tr_leaf hash_leaf tree) i))
   (flat (rowvals v J' m (x %% 2 ^ (J' - m)))).
  apply: mp_validateE => //; first by rewrite /tree eJ.
  by rewrite /tree eJ nth_leaf_tree //= cats0 /i eJ.
rewrite subn1 [predn _]/=.
have [x' [h1 h2 h3 h4 [h5 h6 h7]]] := @verify_step m t J J1 x v _ b alpha pre post htm hJ hJ1 hmJ (eq_ind_r (fun j => x < 2 ^ j)%N hx eJ) hpre hb erefl.
move: h1; rewrite eJ [predn _]/= -eJ => ->; rewrite {1}/obnd h3 {1}/obnd size_dom h2 vget_dom ?ltn_mod ?expn_gt0 // {1}/obnd.
rewrite calculate_sE ?ltn_mod ?expn_gt0 // {1}/obnd [fst _]/= [snd _]/= h6 h7 h5 h4 hy {1 2 3 4 5}/obnd [fst _]/= [snd _]/=.
rewrite interpolantE ?ltn_mod ?expn_gt0 // -/w.
have dv : (2 ^ J1 %| 2 ^ J1.+1)%N by rewrite dvdn_exp2l.
have ez : ((x %% 2 ^ J1.+1) %% 2 ^ J1)%N = z by rewrite modn_dvdm.
have esm : ((if (x %% 2 ^ J1.+1 < get_paired_index (x %% 2 ^ J1.+1) (2 ^ J1.+1)) then x %% 2 ^ J1.+1 else
   get_paired_index (x %% 2 ^ J1.+1) (2 ^ J1.+1)) %% (2 ^ J1.+1 %/ 2))%N = z.
  have -> : (2 ^ J1.+1 %/ 2 = 2 ^ J1)%N by rewrite expnS mulKn.
  by rewrite pair_lo ?ltn_mod ?expn_gt0 // modn_mod.
rewrite esm -/lo ez hv' eqxx.
case: sl hnext => [|s sl] hnext.
  have -> : (2 ^ J1.+1 %/ 2 = 2 ^ J1)%N by rewrite expnS mulKn.
  by rewrite ez -/lo hv' (ur_sqr roots _ hJK) ez.
rewrite (@vget_D (t + m).+1 J1); last 2 first.
- by rewrite -addnS; apply: hnext.
- by move: hJ hJ1; clear=> *; slia.
by rewrite {1}/obnd size_dom ez vget_dom ?ltn_mod ?expn_gt0 // {1}/obnd addnS.
Qed.

Lemma commit_phase_cons step sl f tree0 t tr : commit_phase D (step :: sl) f tree0 t tr =
  obnd (fold_steps challenge D step f t (absorb tr (root tree0))) (fun r => let: (alphas, f', tr) := r in
    if sl is step' :: _ then
      obnd (vget D (t + step)) (fun d => obnd (precommit unity_root f' d step') (fun tree' =>
      obnd (commit_phase D sl f' tree' (t + step)%N tr) (fun r => let: (fts, alphas', f'', tr) := r in
      Some ((f, tree0) :: fts, alphas ++ alphas', f'', tr))))
    else Some ([:: (f, tree0)], alphas, f', tr)).
Proof. by []. Qed.
Lemma round_challenges_cons step sl rt rts tr : round_challenges absorb challenge (step :: sl) (rt :: rts) tr =
  let (alphas, tr) := challenges challenge step (absorb tr rt) in
  obnd (round_challenges absorb challenge sl rts tr) (fun r => Some (alphas ++ r.1, r.2)).
Proof. by []. Qed.
Lemma prove_rounds_cons final step step' sl f0 tree0 f' tree' fts x t :
  prove_rounds D final (step :: step' :: sl) ((f0, tree0) :: (f', tree') :: fts) x t =
  obnd (vget D t) (fun d => obnd (make_proof_specialized hash_leaf hash_node (get_folded_index (x %% size d) (size d) step) (size d) tree0) (fun p =>
  obnd (vget D (t + step)) (fun d' => obnd (vget d' (x %% size d %% size d')) (fun e =>
  obnd (calculate_s e (x %% size d %% size d') step' d') (fun sp =>
  obnd (omapM (fun e : (F * F) * (nat * nat) => round_value f' e.1 e.2) (zip sp.1 sp.2)) (fun y =>
  obnd (prove_rounds D final (step' :: sl) ((f', tree') :: fts) (x %% size d %% size d')%N (t + step)%N) (fun rest =>
  Some (RoundProof y p :: rest)))))))).
Proof. by []. Qed.
Lemma rounds_ok sl : forall f v t J tr, sl != [::] -> all (fun s => 0 < s)%N sl -> (t + sumn sl)%N = r -> (J + t)%N = K -> vals f J v ->
  exists fts alphas fin tr',
  [/\ commit_phase D sl f (leaf_tree [:: v] J.-1 (head 0%N sl).-1) t tr = Some (fts, alphas, fin, tr'),
      size alphas = sumn sl,
      round_challenges absorb challenge sl [seq root ft.2 | ft <- fts] tr = Some (alphas, tr'),
      vals fin (K - r) (fold_many J alphas v) &
      (exists tl, fts = (f, leaf_tree [:: v] J.-1 (head 0%N sl).-1) :: tl) /\
      forall final x pre, (x < 2 ^ J)%N -> size pre = t ->
        peval final (ur (K - r) ^+ (x %% 2 ^ (K - r))) = nth 0 (fold_many J alphas v) (x %% 2 ^ (K - r)) ->
        exists2 rps, prove_rounds D final sl fts x t = Some rps &
          verify_rounds D (pre ++ alphas) final sl [seq root ft.2 | ft <- fts] rps (ur J ^+ x) x t (rowvals v J.-1 (head 0%N sl).-1 x) = Some true].
Proof.
elim: sl => // step sl ih f v t J tr _ /andP[hstep hall] hsum hJ hf.
case: step hstep hsum => // m _; rewrite [sumn _]/= => hsum.
have hmJ : (m < J)%N by move: hJ hr hsum; clear=> *; slia.
have [J1 hJ1] : exists J1, (J - m)%N = J1.+1 by exists (J - m).-1; rewrite prednK // subn_gt0.
have hJ1' : (J - m.+1)%N = J1 by rewrite subnS hJ1.
have htm : (t + m < r)%N by rewrite -hsum -addnS leq_add2l leq_addr.
have htm1 : (t + m.+1 <= r)%N by rewrite addnS.
have [J' eJ] : exists J', J = J'.+1 by exists J.-1; rewrite prednK // (leq_ltn_trans _ hmJ).
have hmJ' : (m <= J')%N by rewrite -ltnS -eJ.
rewrite [head _ _]/= [predn m.+1]/=.
set tree0 := leaf_tree [:: v] J.-1 m.
have [al1 [f' [tr1 [e1 e2 sal vf']]]] := fold_steps_ok (absorb tr (root tree0)) htm1 hJ hf.
case/lastP: al1 sal e1 e2 vf' => // b alpha; rewrite size_rcons => -[sb] e1 e2 vf'.
set u := fold_many J b v; set w := fold_many J (rcons b alpha) v.
have ew : w = fold_vec J1 alpha u by rewrite /w fold_many_rcons sb hJ1.
rewrite hJ1' -/w in vf'.
have hJK : (J1 < K)%N by move: hJ hJ1; clear=> *; slia.
have hDt : vget D t = Some (dom J) by apply: vget_D => //; apply: leq_ltn_trans htm; rewrite leq_addr.
have hDtm : vget D (t + m) = Some (dom J1.+1) by apply: vget_D => //; rewrite -hJ -hJ1 addnC -addnA subnKC ?(ltnW hmJ) // addnC.
have dv : (2 ^ J1 %| 2 ^ J)%N by rewrite dvdn_exp2l // -hJ1' leq_subr.
have hJt : (J1 + (t + m.+1))%N = K by move: hJ hJ1; clear=> *; slia.
have prf x : (x < 2 ^ J)%N -> make_proof_specialized hash_leaf hash_node (get_folded_index x (2 ^ J) m.+1) (2 ^ J) tree0 =
   Some (MerkleProof (root tree0) (x %% 2 ^ (J.-1 - m)) (merkle_path hash_node (J.-1 - m) (tr_leaf hash_leaf tree0) (x %% 2 ^ (J.-1 - m)))).
  move=> hx; rewrite /tree0 eJ folded_index // [predn _]/= (@proof_specializedE _ _ _ _ _ _ m) //.
  by rewrite ltn_mod expn_gt0.
case: sl ih hall hsum => [|s sl] ih hall hsum.
- exists [:: (f, tree0)], (rcons b alpha), f', tr1; rewrite addn0 in hsum.
  have eKr : (K - r)%N = J1 by rewrite -hsum -hJt addnK.
  split.
  + by rewrite commit_phase_cons e1.
  + by rewrite size_rcons sb /= addn0.
  + by rewrite [map _ _]/= round_challenges_cons e2 /= cats0.
  + by rewrite eKr.
  split; first by exists [::].
  move=> final x pre hx hpre; rewrite eKr -/w => hfin.
  rewrite [prove_rounds _ _ _ _ _ _]/= hDt {1}/obnd size_dom (modn_small hx) prf // {1}/obnd.
  rewrite addnS subn1 [predn _]/= hDtm {1}/obnd size_dom vget_dom ?ltn_mod ?expn_gt0 // {1}/obnd.
  rewrite (ur_sqr roots _ hJK).
  have -> : (2 ^ J1.+1 %/ 2 = 2 ^ J1)%N by rewrite expnS mulKn.
  have dv1 : (2 ^ J1 %| 2 ^ J1.+1)%N by rewrite dvdn_exp2l.
  rewrite modn_dvdm //; eexists; first by [].
  rewrite -cats1; set y := (if _ then _ else _).
  rewrite (@verify_round m t J J1 x v b alpha pre [::] final [::] _ _ _ y) //.
    by rewrite -/u -ew -hfin eqxx /y; case: (_ < _)%N; rewrite /= eqxx.
  by rewrite -/u -ew -hfin /y; case: (_ < _)%N.
have hr' : (t + m.+1 + sumn (s :: sl) = r)%N by rewrite -addnA.
have [fts [al [fin [tr2 [c1 c2 c3 c4 [[tl etl] c5]]]]]] := ih f' w (t + m.+1)%N J1 tr1 isT hall hr' hJt vf'.
case: s hall ih hr' hsum c1 c2 c3 etl c5 => // s hall _ hr' hsum c1 c2 c3 etl c5.
rewrite [head _ _]/= [predn s.+1]/= in c1 etl c5.
have htm2 : (t + m.+1 < r)%N by rewrite -hr' -[X in (X < _)%N]addn0 ltn_add2l.
have hDn : vget D (t + m.+1) = Some (dom J1) by apply: vget_D.
have hsJ : (s < J1)%N by move: hr' hJt hr => /=; clear=> *; slia.
have [J2 eJ2] : exists J2, J1 = J2.+1 by exists J1.-1; rewrite prednK // (leq_ltn_trans _ hsJ).
have efm : fold_many J (rcons b alpha ++ al) v = fold_many J1 al w by rewrite fold_many_cat size_rcons sb hJ1'.
exists ((f, tree0) :: fts), (rcons b alpha ++ al), fin, tr2; split.
- rewrite commit_phase_cons e1 {1}/obnd hDn {1}/obnd.
  have -> : precommit unity_root f' (dom J1) s.+1 = Some (leaf_tree [:: w] J1.-1 s).
    by rewrite eJ2; apply: precommitE; [rewrite -ltnS -eJ2|rewrite -eJ2].
  by rewrite {1}/obnd c1.
- by rewrite size_cat size_rcons sb c2.
- by rewrite [map _ _]/= round_challenges_cons e2 c3.
- by rewrite efm.
split; first by exists fts.
move=> final x pre hx hpre; rewrite efm => hfin.
have hx1 : (x %% 2 ^ J1 < 2 ^ J1)%N by rewrite ltn_mod expn_gt0.
have dv2 : (2 ^ (K - r) %| 2 ^ J1)%N by rewrite dvdn_exp2l // -hJt -hr' subnDA addnK leq_subr.
have hpre' : size (pre ++ rcons b alpha) = (t + m.+1)%N by rewrite size_cat size_rcons sb hpre.
have hfin' : peval final (ur (K - r) ^+ (x %% 2 ^ J1 %% 2 ^ (K - r))) = nth 0 (fold_many J1 al w) (x %% 2 ^ J1 %% 2 ^ (K - r)).
  by rewrite modn_dvdm.
have [rps p1 p2] := c5 final (x %% 2 ^ J1)%N (pre ++ rcons b alpha) hx1 hpre' hfin'.
have epr : prove_rounds D final (m.+1 :: s.+1 :: sl) ((f, tree0) :: fts) x t =
   Some (RoundProof (rowvals w J1.-1 s (x %% 2 ^ J1)) (MerkleProof (root tree0) (x %% 2 ^ (J.-1 - m)) (merkle_path hash_node (J.-1 - m) (tr_leaf hash_leaf tree0) (x %% 2 ^ (J.-1 - m)))) :: rps).
  rewrite etl; rewrite etl in p1; rewrite prove_rounds_cons hDt {1}/obnd size_dom (modn_small hx) prf // {1}/obnd.
  rewrite hDn {1}/obnd size_dom vget_dom // {1}/obnd calculate_sE // {1}/obnd [fst _]/= [snd _]/=.
  have -> : omapM (fun e : (F * F) * (nat * nat) => round_value f' e.1 e.2) (zip (points J1 s (x %% 2 ^ J1)) (ipairs J1 s (x %% 2 ^ J1)))
     = Some (rowvals w J1.-1 s (x %% 2 ^ J1)).
    by move: vf' (ltnW hJK); rewrite eJ2 => vf' hK; apply: round_valueE.
  by rewrite {1}/obnd p1.
exists (RoundProof (rowvals w J1.-1 s (x %% 2 ^ J1)) (MerkleProof (root tree0) (x %% 2 ^ (J.-1 - m)) (merkle_path hash_node (J.-1 - m) (tr_leaf hash_leaf tree0) (x %% 2 ^ (J.-1 - m)))) :: rps) => //.
rewrite -cats1 -catA cat1s.
have hv0 : vget (rowvals w J1.-1 s (x %% 2 ^ J1)) 0 = Some (pair_at w (2 ^ J1.-1) (x %% 2 ^ J1)).
  rewrite (vget_nth (0, 0)) ?size_rowvals ?expn_gt0 // nth_rowvals ?expn_gt0 //; congr (Some (pair_at _ _ _)).
  rewrite eJ2 [predn _]/= (@nth_row _ s 0) ?expn_gt0 //.
  by rewrite /row /= addn0 modn_mod.
rewrite [map _ _]/= (@verify_round m t J J1 x v b alpha pre al final (s.+1 :: sl) _ _ _ _ htm hJ hJ1 hmJ hx hpre sb _ hv0) //.
  by move: p2; rewrite -cats1 -!catA cat1s.
rewrite -/u -ew /pair_at /=.
have -> : (2 ^ J1.+1 %/ 4 = 2 ^ J1.-1)%N by rewrite eJ2 !expnS mulnA mulKn.
case: ltnP => h; first by rewrite modn_small.
rewrite eJ2 [predn _]/=; rewrite eJ2 [predn _]/= in h; move: hx1; rewrite eJ2 => hx1.
by congr nth; case: (pair_cases hx1) => -[h' [-> _]]; [move: h; rewrite leqNgt h'|rewrite subnK].
Qed.
End Rounds.
