(** Honest FRI proofs are accepted. *)
From mathcomp Require Import all_ssreflect all_algebra.
From Verif.Model Require Import Base OrderedMap Domain FoldPolynomial MerkleTree Quotient PolysEvaluator Fri.
From Verif.Spec Require Import FriSpec.
From Verif.Proofs Require Import NatTac FieldTac PermProofs KzgProofs PackingProofs PlaceholderRun MerkleProofs DomainProofs FoldProofs QuotientProofs FriIndex FriLayout FriFold FriRounds.
Set Implicit Arguments.
Unset Strict Implicit.
Unset Printing Implicit Defensive.
Import GRing.Theory.
Local Open Scope ring_scope.

Lemma halved_leq a b n : (a <= b)%N -> (halved a n <= halved b n)%N.
Proof. by elim: n a b => //= n ih a b h; apply/uphalf_leq/ih. Qed.
Lemma halved_pow d n : halved (2 ^ d) n = (2 ^ (d - n))%N.
Proof.
elim: n => [|n ih]; first by rewrite subn0.
rewrite /halved iterS -/(halved _ _) ih subnS; case: (d - n)%N => // k.
by rewrite expnS mul2n uphalf_double.
Qed.

Section Complete.
Variable F : fieldType.
Variables (Dg : eqType) (hash_leaf : seq F -> Dg) (hash_node : Dg -> Dg -> Dg).
Variables (T : Type) (absorb : T -> Dg -> T) (challenge : T -> F * T).
Variables (Pw : Type) (grind : T -> nat -> option (Pw * T)) (grind_verify : T -> Pw -> nat -> bool * T).
Variable modulus : nat.
Variable unity_root : nat -> F.
Variable K : nat.
Hypothesis roots : roots_ok unity_root K.
Hypothesis two : (2%:R : F) != 0.
Notation dom j := (make_domain unity_root (2 ^ j)).
Notation ur j := (unity_root (2 ^ j)).
Notation root := (tr_root hash_leaf hash_node).
Notation fold_vec := (fold_vec unity_root).
Notation fold_many := (fold_many unity_root).
Notation vals := (vals unity_root).
Notation low := (low unity_root).
Notation points := (points unity_root).
Notation commit_phase := (commit_phase hash_leaf hash_node absorb challenge unity_root).
Notation prove_rounds := (prove_rounds hash_leaf hash_node).
Notation verify_rounds := (verify_rounds hash_leaf hash_node).

(** ** Sizes through the commit phase *)
Definition bounded (f : fpoly F) (j b : nat) : Prop := match f with Coef c => (size c <= b)%N | Dfs u => low j b u end.
Lemma fold_bounded f f' j v alpha b : (j < K)%N -> vals f j.+1 v -> bounded f j.+1 b -> fold_poly f alpha (dom j.+1) = Some f' ->
  bounded f' j (uphalf b) /\ exists v', vals f' j v'.
Proof.
move=> hj hv hb hf; have [f1 hf1 v1] := fold_polyE roots two alpha hj hv.
have e : f1 = f' by move: hf1; rewrite hf => -[].
rewrite e {f1 e hf1} in v1; split; last by exists (fold_vec j alpha v).
case: f hv hb hf v1 => [c [c0 _ _]|u [hu ->]] /= hb.
  have [g hg sg] := C36_FriFolding.C36_halves alpha c0; rewrite hg => -[<-] _ /=; rewrite sg; exact: uphalf_leq.
case: (fold_dfs u alpha _) => [g|] //= -[<-] -[_ e]; rewrite /bounded -e; exact: (low_fold roots two).
Qed.
Section Sizes.
Variable r : nat.
Hypothesis hr : (r <= K)%N.
Notation D := (calculate_domain_set unity_root K r).
Lemma fold_steps_bounded n : forall f v t J tr b alphas f' tr', (t + n <= r)%N -> (J + t)%N = K -> vals f J v -> bounded f J b ->
  fold_steps challenge D n f t tr = Some (alphas, f', tr') -> bounded f' (J - n) (halved b n) /\ exists v', vals f' (J - n) v'.
Proof.
elim: n => [|n ih] f v t J tr b alphas f' tr' htr hJ hf hb.
  by rewrite /= subn0 => -[_ <- _]; split=> //; exists v.
rewrite /=; case: (challenge tr) => alpha tr1.
have hJ0 : (0 < J)%N by move: hJ hr htr; clear=> *; slia.
case: J hJ hf hb hJ0 => // J hJ hf hb _.
rewrite (@vget_D _ _ K r t J.+1) //; last by move: htr; clear=> *; slia.
have hJK : (J < K)%N by move: hJ; clear=> *; slia.
rewrite {1}/obnd; case e : (fold_poly _ _ _) => [g|] //; rewrite {1}/obnd.
have [gb [v' gv]] := fold_bounded hJK hf hb e.
case e2 : (fold_steps _ _ _ _ _ _) => [[[al f2] tr2]|] //= [_ <- _].
have htr' : (t.+1 + n <= r)%N by rewrite addSnnS.
have hJ' : (J + t.+1)%N = K by rewrite addnS.
have := ih _ _ _ _ _ _ _ _ _ htr' hJ' gv gb e2.
by rewrite subSS /halved -iterS iterSr.
Qed.
Lemma commit_size sl : forall f t tr tree0 fts alphas fin tr', commit_phase D sl f tree0 t tr = Some (fts, alphas, fin, tr') -> size fts = size sl.
Proof.
elim: sl => [|step sl ih] f t tr tree0 fts alphas fin tr'; first by move=> -[<-].
rewrite commit_phase_cons; case e : (fold_steps _ _ _ _ _ _) => [[[al f1] tr1]|] //; rewrite {1}/obnd.
case: sl ih => [|s sl] ih; first by move=> -[<-].
case: (vget D _) => [d|] //; rewrite {1}/obnd; case: (precommit _ _ _ _) => [tree1|] //; rewrite {1}/obnd.
by case e2 : (commit_phase _ _ _ _ _ _) => [[[[fts2 al2] f2] tr2]|] //= [<- _ _ _] /=; rewrite (ih _ _ _ _ _ _ _ _ e2).
Qed.
Lemma commit_bounded sl : forall f v t J tr b tree0 fts alphas fin tr', (t + sumn sl)%N = r -> (J + t)%N = K ->
  vals f J v -> bounded f J b -> commit_phase D sl f tree0 t tr = Some (fts, alphas, fin, tr') -> bounded fin (J - sumn sl) (halved b (sumn sl)).
Proof.
elim: sl => [|step sl ih] f v t J tr b tree0 fts alphas fin tr' hsum hJ hf hb.
  by rewrite /= subn0 => -[_ _ <- _].
rewrite commit_phase_cons; case e : (fold_steps _ _ _ _ _ _) => [[[al f1] tr1]|] //; rewrite {1}/obnd.
have hle : (t + step <= r)%N by rewrite -hsum /= leq_add2l leq_addr.
have [b1 [v1 hv1]] := fold_steps_bounded hle hJ hf hb e.
case: sl ih hsum => [|s sl] ih hsum; first by move=> -[_ _ <- _]; rewrite /= addn0.
case: (vget D _) => [d|] //; rewrite {1}/obnd; case: (precommit _ _ _ _) => [tree1|] //; rewrite {1}/obnd.
case e2 : (commit_phase _ _ _ _ _ _) => [[[[fts2 al2] f2] tr2]|] //= [_ _ <- _].
have hsJ : (step <= J)%N by move: hJ hr hle; clear=> *; slia.
have hJ' : (J - step + (t + step))%N = K by move: hJ hsJ; clear=> *; slia.
have hsum' : (t + step + sumn (s :: sl))%N = r by rewrite -addnA.
have := ih _ _ _ _ _ _ _ _ _ _ _ hsum' hJ' hv1 b1 e2.
by rewrite -subnDA /halved -iterD addnC.
Qed.
End Sizes.

(** ** The final polynomial *)
Lemma dfs_coefficientsE j (u : seq F) a : (j <= K)%N -> size u = (2 ^ j)%N -> (a < 2 ^ j)%N ->
  peval (dfs_coefficients unity_root u) (ur j ^+ a) = nth 0 u a.
Proof.
move=> hj hu ha; rewrite /dfs_coefficients hu pevalE coefficientsK -nth_dom //; apply: inverse_fft_at; last by rewrite size_dom.
exact: (uniq_dom roots).
Qed.
Lemma dfs_coefficients_size j (u : seq F) b : (j <= K)%N -> size u = (2 ^ j)%N -> low j b u ->
  (0 < size (dfs_coefficients unity_root u) <= b)%N.
Proof.
move=> hj hu [c [c0 hc e]]; rewrite /dfs_coefficients hu size_coefficients leq_max /= geq_max.
have c1 : (0 < size c)%N by case: (c) c0.
rewrite (leq_trans c1 hc) /=; have hs : (size (Poly (inverse_fft (dom j) u)) <= 2 ^ j)%N.
  by apply: leq_trans (size_Poly _) _; rewrite size_inverse_fft size_dom.
case: (leqP (size c) (2 ^ j)) => hcj; last by apply: leq_trans hs _; apply: leq_trans hc; exact: ltnW.
suff -> : Poly (inverse_fft (dom j) u) = Poly c by apply: leq_trans (size_Poly _) hc.
apply: (@poly_ext _ (dom j)); rewrite ?size_dom ?(uniq_dom roots) // ?(leq_trans (size_Poly _)) //.
move=> x /(nthP 0)[i]; rewrite size_dom => hi <-.
by rewrite inverse_fft_at ?(uniq_dom roots) ?size_dom // e nth_dom // nth_fft // pevalE.
Qed.
Lemma finalE f j v : (j <= K)%N -> vals f j v -> forall a, (a < 2 ^ j)%N -> peval (final_polynomial unity_root f) (ur j ^+ a) = nth 0 v a.
Proof.
move=> hj hv a ha; case: f hv => [c [_ _ ->]|u [hu ->]] /=; first by rewrite nth_fft.
exact: dfs_coefficientsE.
Qed.
Lemma final_size f j v b : (j <= K)%N -> vals f j v -> bounded f j b -> (0 < size (final_polynomial unity_root f) <= b)%N.
Proof.
move=> hj hv; case: f hv => [c [c0 _ _]|u [hu _]] /= hb; first by rewrite hb andbT; case: (c) c0.
exact: dfs_coefficients_size hb.
Qed.

(** ** Opened values of the committed polynomials *)
Lemma value_points' k (c : seq F) a : (k.+1 <= K)%N -> (a < 2 ^ k.+1)%N ->
  (let: (s0, s1) := if (a < get_paired_index a (2 ^ k.+1))%N then (ur k.+1 ^+ a, ur k.+1 ^+ get_paired_index a (2 ^ k.+1)) else
    (ur k.+1 ^+ get_paired_index a (2 ^ k.+1), ur k.+1 ^+ a) in Some (peval c s0, peval c s1)) = Some (pair_at (fft (dom k.+1) c) (2 ^ k) a).
Proof. by move=> hk ha; rewrite -(@value_points _ unity_root K k c a hk ha) pair_gt // pair_lt //; case: ifP. Qed.
Lemma initial_valueE f k v m x : (k.+1 <= K)%N -> on_domain unity_root f (dom k.+1) = Some v ->
  omapM (fun e : (F * F) * (nat * nat) => initial_value unity_root f (dom k.+1) e.1 e.2) (zip (points k.+1 m x) (ipairs k.+1 m x)) = Some (rowvals v k m x).
Proof.
move=> hk hf; rewrite /FriFold.points /ipairs zip_map omapM_map; apply: omapM_some => a ha.
have hlt := allP (row_lt k m x) a ha; rewrite [fst _]/= [snd _]/=.
case: f hf => [c|u]; rewrite /initial_value /on_domain size_dom [fst _]/= [snd _]/= [fst _]/= [snd _]/=.
  by case: ifP => // _ [<-]; apply: value_points'.
case: eqP => [hu [<-]|_]; last by case: ifP => // _ [<-]; apply: value_points'.
rewrite pair_min // pair_max //.
have h1 : (a %% 2 ^ k < 2 ^ k)%N by rewrite ltn_mod expn_gt0.
by rewrite !(vget_nth 0) ?hu // ?n_double ?ltn_add2r // (leq_trans h1) // leq_addr.
Qed.
Lemma precommit_batchE fs k m tr0 : (m <= k)%N -> precommit_batch unity_root fs (dom k.+1) m.+1 = Some tr0 ->
  exists2 vs, omapM (fun f => on_domain unity_root f (dom k.+1)) fs = Some vs & tr0 = leaf_tree vs k m.
Proof.
move=> hm; rewrite /precommit_batch; case e : (omapM _ _) => [vs|] //=; rewrite size_dom precommit_valuesE //; last first.
  elim: fs vs e => [|f fs ih] vs /=; first by move=> -[<-].
  case e1 : (on_domain _ _ _) => [v|] //=; case e2 : (omapM _ _) => [vs'|] //= [<-] /=; rewrite (ih _ e2) andbT.
  case: f e1 => [c|u] /=; rewrite size_dom.
    by case: ifP => // _ [<-]; rewrite size_map size_dom.
  by case: eqP => [h [<-]|_]; [rewrite h|case: ifP => // _ [<-]; rewrite size_map size_dom].
by move=> -[<-]; exists vs.
Qed.


Lemma on_domain_values f k v v' : (k <= K)%N -> on_domain unity_root f (dom k) = Some v -> values_of unity_root f (dom k) v' -> v = v'.
Proof.
move=> hk; case: f => [c|u] /=; rewrite size_dom.
  by case: ifP => // _ [<-] ->; apply: eq_map => x; rewrite pevalE.
move=> h [j [p [hu sp eu ->]]]; move: h; case: eqP => [hk2 [<-]|_]; first by rewrite {1}eu hk2.
case: ifP => // hle [<-]; apply: eq_map => x; rewrite pevalE; congr (_.[x]).
have hj : (j <= K)%N by apply: leq_trans hk; rewrite -(leq_exp2l (m := 2)) // -hu.
rewrite /dfs_coefficients coefficientsK; apply: (@poly_ext _ (make_domain unity_root (size u))).
- by rewrite hu; apply: (uniq_dom roots).
- by apply: leq_trans (size_Poly _) _; rewrite size_inverse_fft.
- by rewrite hu size_dom -hu.
move=> y /(nthP 0)[i hi <-]; rewrite inverse_fft_at //; last by rewrite hu; apply: (uniq_dom roots).
by rewrite [in LHS]eu (nth_map 0).
Qed.

(** ** The combination *)
Lemma combine_groupE (theta : F) (value : nat * nat -> option F) (w : nat * nat -> F) ids acc : {in ids, forall id, value id = Some (w id)} ->
  combine_group theta value ids acc = Some (\sum_(k < size ids) acc * theta ^+ k * w (nth (0, 0)%N ids k), acc * theta ^+ size ids).
Proof.
move=> h; suff /(_ 0) : forall s, ofold (fun (st : F * F) id => obnd (value id) (fun v => Some (st.1 + v * st.2, st.2 * theta))) (s, acc) ids =
    Some (s + \sum_(k < size ids) acc * theta ^+ k * w (nth (0, 0)%N ids k), acc * theta ^+ size ids) by rewrite add0r.
elim: ids acc h => [|id ids ih] acc h s /=; first by rewrite big_ord0 addr0 expr0 mulr1.
rewrite h ?mem_head //= ih; last by move=> i hi; apply: h; rewrite inE hi orbT.
rewrite big_ord_recl /= expr0 mulr1 addrA (mulrC (w id)) exprSr -mulrA (mulrC theta); congr (Some (_ + _, _)).
by apply: eq_bigr => i _; rewrite exprS !mulrA.
Qed.
Lemma combine_pointE (theta : F) (value : nat * nat -> option F) (w : nat * nat -> F) x gs : {in flatten [seq e.1 | e <- gs], forall id, value id = Some (w id)} ->
  all (fun e : seq (nat * nat) * (F * seq F) => (Poly e.2.2).[x] != 0) gs -> forall s off,
  omap fst (ofold (fun (st : F * F) (e : seq (nat * nat) * (F * seq F)) =>
    olet q <- combine_group theta value e.1 st.2;
    let v := peval e.2.2 x in
    oguard v != 0;
    Some (st.1 + (q.1 - e.2.1) * v^-1, q.2)) (s, theta ^+ off) gs) = Some (s + combination theta w x off gs).
Proof.
elim: gs => [|[ids [u V]] gs ih] h /=; first by move=> _ s off; rewrite addr0.
move=> /andP[hv hall] s off; rewrite (@combine_groupE _ _ w); last by move=> id hid; apply: h; rewrite mem_cat hid.
rewrite {1}/obnd pevalE hv /= -exprD ih //; last by move=> id hid; apply: h; rewrite mem_cat hid orbT.
congr (Some _); rewrite addrA; congr (_ + (_ - _) / _ + _).
by apply: eq_bigr => i _; rewrite exprD.
Qed.
Lemma map_fst_zip (A B : Type) (s : seq A) (t : seq B) : size s = size t -> [seq e.1 | e <- zip s t] = s.
Proof. by elim: s t => [|a s ih] [|b t] //= [/ih ->]. Qed.

Lemma omapM_In (A B : Type) (f : A -> option B) (h : A -> B) s : (forall x, List.In x s -> f x = Some (h x)) -> omapM f s = Some [seq h x | x <- s].
Proof. by elim: s => //= x s ih hx; rewrite hx ?ih; [|move=> y hy; apply: hx; right|left]. Qed.
(** ** One query *)
Section Query.
Variables (k m r dl lambda gp : nat) (ug : bool) (sl : seq nat).
Hypothesis eK : K = k.+1.
Hypothesis hm : (m <= k)%N.
Notation D0 := (dom K).
Variables (g : omapT (seq (fpoly F))) (trees : omapT (tree F)) (commitments : omapT Dg).
Hypothesis gsorted : sorted ltn (om_keys g).
Hypothesis committed : forall k fs, om_get g k = Some fs -> exists2 t, om_get trees k = Some t &
  precommit_batch unity_root fs D0 m.+1 = Some t /\ om_get commitments k = Some (root t).
Variables (theta : F) (poly_ids : seq (seq (nat * nat))) (U : seq F) (V : seq (seq F)).
Hypothesis sizesU : size U = size V.
Hypothesis sizesP : size poly_ids = size U.
Variable values : nat * nat -> seq F.
Hypothesis gvalues : batch_values unity_root g D0 values.
Hypothesis resolved : {in flatten poly_ids, forall id, exists2 fs, om_get g id.1 = Some fs & (id.2 < size fs)%N}.
Hypothesis nonzero : forall x v, x \in D0 -> v \in V -> (Poly v).[x] != 0.
Variable q : seq F.
Hypothesis qE : forall i, (i < 2 ^ K)%N ->
  nth 0 q i = combination theta (fun id => nth 0 (values id) i) (ur K ^+ i) 0 (zip poly_ids (zip U V)).

Definition vsof (fs : seq (fpoly F)) : seq (seq F) := odflt [::] (omapM (fun f => on_domain unity_root f D0) fs).
Definition opening (x : nat) (key : nat) (fs : seq (fpoly F)) : initial_proof F Dg :=
  let t := leaf_tree (vsof fs) k m in let i := (x %% 2 ^ (k - m))%N in
  InitialProof [seq rowvals v k m x | v <- vsof fs] (MerkleProof (root t) i (merkle_path hash_node (k - m) (tr_leaf hash_leaf t) i)).
Definition openings (x : nat) (g : omapT (seq (fpoly F))) : omapT (initial_proof F Dg) := [seq (e.1, opening x e.1 e.2) | e <- g].
Lemma om_get_map (A B : Type) (h : nat -> A -> B) (s : omapT A) key : om_get [seq (e.1, h e.1 e.2) | e <- s] key = omap (h key) (om_get s key).
Proof. by elim: s => //= -[k1 x] s ih /=; case: eqP => [->|_]. Qed.
Lemma om_get_in' (A : Type) (s : omapT A) e : sorted ltn (om_keys s) -> List.In e s -> om_get s e.1 = Some e.2.
Proof.
elim: s => //= -[k1 x] s ih hs [<-|hin] /=; first by rewrite eqxx.
rewrite ih ?(path_sorted hs) //; case: eqP => // ek.
have : (k1 < e.1)%N.
  have hin' : e.1 \in om_keys s by elim: (s) hin => //= a s' ih' [->|/ih' h]; rewrite inE ?eqxx ?h ?orbT.
  by move: hs; rewrite /= (path_sortedE ltn_trans) => /andP[/allP /(_ _ hin')].
by rewrite ek ltnn.
Qed.
Lemma vsofE key fs : om_get g key = Some fs -> [/\ omapM (fun f => on_domain unity_root f D0) fs = Some (vsof fs),
  om_get trees key = Some (leaf_tree (vsof fs) k m) & om_get commitments key = Some (root (leaf_tree (vsof fs) k m))].
Proof.
move=> h; have [t ht [hp hc]] := committed h; rewrite eK in hp.
have [vs e et] := precommit_batchE hm hp; rewrite -eK in e.
by rewrite /vsof e /= -et.
Qed.
Lemma initialK f v x : on_domain unity_root f D0 = Some v ->
  omapM (fun sp : (F * F) * (nat * nat) => initial_value unity_root f D0 sp.1 sp.2) (zip (points K m x) (ipairs K m x)) = Some (rowvals v k m x).
Proof.
have : forall K', K' = k.+1 -> (K' <= K)%N -> on_domain unity_root f (dom K') = Some v ->
  omapM (fun sp : (F * F) * (nat * nat) => initial_value unity_root f (dom K') sp.1 sp.2) (zip (points K' m x) (ipairs K' m x)) = Some (rowvals v k m x).
  by move=> K' -> hK e; apply: (initial_valueE _ _ hK e).
by apply.
Qed.
Lemma prove_initialE x s : (x < 2 ^ K)%N -> (forall e, List.In e s -> om_get g e.1 = Some e.2) ->
  prove_initial hash_leaf hash_node unity_root D0 m.+1 x (points K m x) (ipairs K m x) s trees = Some (openings x s).
Proof.
move=> hx h; rewrite /prove_initial /openings; apply: omapM_In => -[key fs] /h; rewrite [fst _]/= [snd _]/= => hk.
have [h1 h2 _] := vsofE hk.
have -> : omapM (fun f => omapM (fun sp : (F * F) * (nat * nat) => initial_value unity_root f D0 sp.1 sp.2) (zip (points K m x) (ipairs K m x))) fs
    = Some [seq rowvals v k m x | v <- vsof fs].
  elim: {hk h2} fs (vsof fs) h1 => [|f fs ih] vs /=; first by move=> -[<-].
  case e1 : (on_domain _ _ _) => [v|] //=; case e2 : (omapM _ _) => [vs'|] //= [<-].
  have -> : omapM (fun sp : (F * F) * (nat * nat) => initial_value unity_root f D0 sp.1 sp.2) (zip (points K m x) (ipairs K m x)) = Some (rowvals v k m x).
    exact: initialK.
  by rewrite /= (ih _ e2).
rewrite {1}/obnd h2 {1}/obnd size_dom.
have -> : get_folded_index x (2 ^ K) m.+1 = (x %% 2 ^ (k - m))%N by rewrite eK folded_index.
have -> : make_proof_specialized hash_leaf hash_node (x %% 2 ^ (k - m)) (2 ^ K) (leaf_tree (vsof fs) k m) =
   Some (MerkleProof (root (leaf_tree (vsof fs) k m)) (x %% 2 ^ (k - m)) (merkle_path hash_node (k - m) (tr_leaf hash_leaf (leaf_tree (vsof fs) k m)) (x %% 2 ^ (k - m)))).
  by rewrite eK (@proof_specializedE _ _ _ _ _ _ m) // ltn_mod expn_gt0.
by [].
Qed.
Lemma check_initialE x order s : (x < 2 ^ K)%N -> (forall e, List.In e s -> om_get g e.1 = Some e.2) ->
  all (fun i => i < 2 ^ m)%N order ->
  [seq (nth 0%N (row (2 ^ k.+1) m x) i %% 2 ^ k)%N | i <- order] = [seq (a %% 2 ^ k)%N | a <- row (2 ^ k.+1) m (x %% 2 ^ (k - m))] ->
  check_initial hash_leaf hash_node commitments order (openings x s) = Some true.
Proof.
move=> hx h ho eo; elim: s h => //= -[key fs] s ih h; have [h1 h2 h3] := vsofE (h _ (or_introl erefl)).
rewrite [fst _]/= in h3; rewrite [fst _]/= h3 {1}/obnd eqxx.
have -> : omapM (ordered_values order) [seq rowvals v k m x | v <- vsof fs] = Some [seq flat (rowvals v k m (x %% 2 ^ (k - m))) | v <- vsof fs].
  by rewrite omapM_map; apply: omapM_some => v _; apply: ordered_valuesE.
rewrite [omap _ _]/= {1}/obnd [snd _]/=.
have -> /= : mp_validate hash_leaf hash_node (MerkleProof (root (leaf_tree (vsof fs) k m)) (x %% 2 ^ (k - m)) (merkle_path hash_node (k - m) (tr_leaf hash_leaf (leaf_tree (vsof fs) k m)) (x %% 2 ^ (k - m))))
   (flatten [seq flat (rowvals v k m (x %% 2 ^ (k - m))) | v <- vsof fs]).
  by apply: mp_validateE => //; rewrite ?ltn_mod ?expn_gt0 // nth_leaf_tree // ltn_mod expn_gt0.
by apply: ih => e he; apply: h; right.
Qed.
Lemma openings_value x id fs : om_get g id.1 = Some fs -> (id.2 < size fs)%N ->
  exists v, [/\ obnd (om_get (openings x g) id.1) (fun ip => vget (ip_values ip) id.2) = Some (rowvals v k m x) & v = values id].
Proof.
move=> hk hi; have [h1 _ _] := vsofE hk.
have hsz : size (vsof fs) = size fs by apply: omapM_size h1.
exists (nth [::] (vsof fs) id.2); split.
  by rewrite /openings om_get_map hk /= (vget_nth [::]) ?size_map ?hsz // (nth_map [::]) ?hsz.
have [f hf] : exists f, vget fs id.2 = Some f 
  by case: (fs) hi => // f0 fs' hi; exists (nth f0 (f0 :: fs') id.2); apply: vget_nth.
have e1 : on_domain unity_root f D0 = Some (nth [::] (vsof fs) id.2).
  have := omapM_nth f [::] h1 hi; suff -> : nth f fs id.2 = f by [].
  by apply: nth_vget.
apply: (on_domain_values (leqnn K) e1).
have := gvalues hk hf; by case: (id).
Qed.

Lemma combineE x : (x < 2 ^ K)%N ->
  combine theta poly_ids U V (openings x g) (points K m x) (ipairs K m x) = Some (rowvals q k m x).
Proof.
move=> hx; rewrite /combine size_map size_row.
rewrite (omapM_some (g := fun j => nth (0, 0) (rowvals q k m x) j)); last first.
  move=> j; rewrite mem_iota add0n => /andP[_ hj].
  rewrite (vget_nth (0, 0)) ?size_map ?size_offs // (vget_nth (0, 0)%N) ?size_map ?size_offs // {1 2}/obnd.
  rewrite nth_points // nth_ipairs // nth_rowvals // [fst _]/= [snd _]/= [fst _]/= [snd _]/=.
  set a := nth 0%N (row (2 ^ K) m x) j.
  have ha : (a < 2 ^ k.+1)%N by rewrite /a eK nth_row_lt.
  have hlo : (a %% 2 ^ k < 2 ^ k)%N by rewrite ltn_mod expn_gt0.
  have hlo1 : (a %% 2 ^ k < 2 ^ K)%N by rewrite eK n_double (leq_trans hlo) // leq_addr.
  have hhi1 : (a %% 2 ^ k + 2 ^ k < 2 ^ K)%N by rewrite eK n_double ltn_add2r.
  have -> : (if (a < get_paired_index a (2 ^ K))%N then (ur K ^+ a, ur K ^+ get_paired_index a (2 ^ K)) else
     (ur K ^+ get_paired_index a (2 ^ K), ur K ^+ a)) = (ur K ^+ (a %% 2 ^ k), ur K ^+ (a %% 2 ^ k + 2 ^ k)).
    have -> : get_paired_index a (2 ^ K) = get_paired_index a (2 ^ k.+1) by rewrite eK.
    rewrite pair_lt //; case: (pair_cases ha) => -[h [-> ->]]; first by rewrite h.
    by rewrite ltnNge h /= subnK.
  have E (sel : F * F -> F) i : (i < 2 ^ K)%N -> (forall v, sel (pair_at v (2 ^ k) a) = nth 0 v i) ->
     combine_point theta poly_ids U V (fun id => obnd (om_get (openings x g) id.1) (fun ip => obnd (vget (ip_values ip) id.2) (fun vs => omap sel (vget vs j)))) (ur K ^+ i) = Some (nth 0 q i).
    move=> hi hsel; rewrite /combine_point -[X in (0, X)](expr0 theta) (@combine_pointE _ _ (fun id => nth 0 (values id) i)).
    - by rewrite add0r qE.
    - rewrite map_fst_zip ?size_zip ?sizesU ?minnn -?sizesU // => id hid; have [fs hk hid2] := resolved hid.
      have [v [hv ev]] := openings_value x hk hid2; move: hv.
      case: (om_get (openings x g) id.1) => [ip|] //= ->.
      rewrite {1}/obnd (vget_nth (0, 0)) ?size_rowvals // [omap _ _]/= nth_rowvals // -eK -/a hsel ev.
      by [].
    apply/(all_nthP ([::], (0, [::]))) => l; rewrite !size_zip sizesP sizesU !minnn => hl.
    rewrite !nth_zip ?size_zip ?sizesP ?sizesU ?minnn //=; apply: nonzero; last exact: mem_nth.
    by rewrite -nth_dom // mem_nth // size_dom.
  by rewrite (E fst _ hlo1) // (E snd _ hhi1) // {1 2}/obnd -eK.
congr Some; apply: (@eq_from_nth _ (0, 0)); first by rewrite size_map size_iota size_rowvals.
by move=> i; rewrite size_map size_iota => hi; rewrite (nth_map 0%N) ?size_iota // nth_iota.
Qed.

(** The queries *)
Variables (fts : seq (fpoly F * tree F)) (alphas : seq F) (final : seq F).
Hypothesis hsl : sl != [::].
Hypothesis hmsl : head 0%N sl = m.+1.
Hypothesis hr : (0 < r)%N.
Notation D := (calculate_domain_set unity_root K r).
Notation P := (FriParams lambda ug gp (2 ^ dl - 1) D r sl).
Variable good : nat -> bool.
Hypothesis roundsok : forall x, (x < 2 ^ K)%N -> good x -> exists2 rps, prove_rounds D final sl fts x 0 = Some rps &
  verify_rounds D alphas final sl [seq root ft.2 | ft <- fts] rps (ur K ^+ x) x 0 (rowvals q k m x) = Some true.
Notation query_point c := (c ^+ ((modulus - 1) %/ 2 ^ K)).
Lemma index_loop_head fuel n half base prev x s : exists s', index_loop fuel n half base prev (x :: s) = x :: s'.
Proof.
elim: fuel base prev s => [|fuel ih] base prev s /=; first by exists s.
by case: ifP => _; [apply: ih|exists s].
Qed.
Lemma vget_D0 : vget D 0 = Some D0.
Proof. by apply: vget_D; rewrite ?addn0. Qed.
Lemma vget_sl : vget sl 0 = Some m.+1.
Proof. by case: (sl) hsl hmsl => //= a l _ ->. Qed.
Lemma query_outside c : query_point c \notin D0 ->
  prove_query hash_leaf hash_node modulus unity_root P g trees fts final c = None.
Proof.
move=> hc; rewrite /prove_query [fp_D _]/= vget_D0 {1}/obnd size_dom vget_sl {1}/obnd.
have -> : index (query_point c) D0 = (2 ^ K)%N by rewrite memNindex ?size_dom.
suff -> : calculate_s (query_point c) (2 ^ K) m.+1 D0 = None by [].
have e : vget D0 (2 ^ K) = None by apply: vget_None; rewrite size_dom.
rewrite /calculate_s size_dom /coset_indices.
have [s' ->] := index_loop_head m.+1 (2 ^ K) (2 ^ m.+1 %/ 2) (2 ^ K %/ (2 * 2)) 1 (2 ^ K) [::].
by rewrite ltn0Sn {1}/obnd [map _ _]/= [omapM _ (_ :: _)]/= e.
Qed.
Lemma query_inside c pw qs : query_point c \in D0 -> good (index (query_point c) D0) -> exists2 qp,
  prove_query hash_leaf hash_node modulus unity_root P g trees fts final c = Some qp &
  verify_query hash_leaf hash_node modulus P commitments theta poly_ids U V alphas
    (@FriProof F Dg Pw [seq root ft.2 | ft <- fts] final qs pw) qp c = Some true.
Proof.
move=> hc hg.
have hx : (index (query_point c) D0 < 2 ^ K)%N by rewrite -[X in (_ < X)%N](size_dom unity_root) index_mem.
have ex : query_point c = ur K ^+ index (query_point c) D0 by rewrite -nth_dom // nth_index.
set x := index _ _ in ex hx hg.
have [rps p1 p2] := roundsok hx hg; exists (QueryProof (openings x g) rps).
  rewrite /prove_query [fp_D _]/= vget_D0 {1}/obnd size_dom vget_sl {1}/obnd -/x ex calculate_sE // {1}/obnd [fst _]/= [snd _]/=.
  rewrite prove_initialE //; last by move=> e; apply: om_get_in'.
  by rewrite {1}/obnd p1.
rewrite /verify_query [fp_D _]/= vget_D0 {1}/obnd size_dom vget_sl {1}/obnd -/x ex calculate_sE // {1}/obnd [fst _]/= [snd _]/=.
have hx' : (x < 2 ^ k.+1)%N by rewrite -eK.
have [order [eorder so ho eo]] := correct_orderE hm hx'; rewrite -eK in eorder.
rewrite eorder {1}/obnd [qp_initial _]/= check_initialE //; last by move=> e; apply: om_get_in'.
by rewrite {1}/obnd combineE // {1}/obnd.
Qed.
Notation prove_queries := (prove_queries hash_leaf hash_node challenge modulus unity_root).
Notation verify_queries := (verify_queries hash_leaf hash_node challenge modulus).
Notation inside := (fun c => query_point c \in D0).
Lemma queries_fail n : forall tr, ~~ all inside (challenges challenge n tr).1 -> prove_queries P g trees fts final n tr = None.
Proof.
elim: n => [|n ih] tr //=; case: (challenge tr) => c tr1; case e : (challenges challenge n tr1) => [al tr2] /=.
case hc : (inside c) => /=; last by rewrite query_outside ?hc.
have := ih tr1; rewrite e => /= h /h ->; by case: (prove_query _ _ _ _ _ _ _ _ _ _).
Qed.
Lemma queries_ok n : forall tr, all (fun c => (query_point c \in D0) && good (index (query_point c) D0)) (challenges challenge n tr).1 -> exists2 qs,
  prove_queries P g trees fts final n tr = Some (qs, (challenges challenge n tr).2) &
  forall pre pw, verify_queries P commitments theta poly_ids U V alphas (@FriProof F Dg Pw [seq root ft.2 | ft <- fts] final (pre ++ qs) pw) n (size pre) tr
   = Some (true, (challenges challenge n tr).2).
Proof.
elim: n => [|n ih] tr /=; first by exists [::].
case: (challenge tr) => c tr1; case e : (challenges challenge n tr1) => [al tr2] /= /andP[/andP[hc hg] hall].
have := ih tr1; rewrite e => /= /(_ hall)[qs h1 h2].
have [qp hp _] := query_inside None [::] hc hg; exists (qp :: qs); first by rewrite hp /= h1.
move=> pre pw; rewrite (vget_nth qp) ?nth_cat ?ltnn ?subnn /= ?size_cat ?addnS ?ltnS ?leq_addr //.
have [qp' hp'] := query_inside pw (pre ++ qp :: qs) hc hg; move: hp'; rewrite hp => -[<-] ->; rewrite {1}/obnd.
by rewrite -cat_rcons -(size_rcons pre qp) h2.
Qed.
End Query.

(** ** The protocol *)
Section Main.
Variables (sl : seq nat) (dl lambda expand gp : nat) (ug : bool).
Hypothesis eK : K = (dl + expand)%N.
Notation P := (fri_params_of unity_root sl dl lambda expand ug gp).
Notation D0 := (dom K).
Hypothesis steps : check_step_list P.
Hypothesis hsum : (sumn sl <= dl.+1)%N.
Hypothesis hsumK : (sumn sl <= K)%N.
Variables (g : omapT (seq (fpoly F))) (trees : omapT (tree F)) (commitments : omapT Dg).
Hypothesis gsorted : sorted ltn (om_keys g).
Hypothesis committed : forall k fs, om_get g k = Some fs -> exists2 t, om_get trees k = Some t &
  precommit_batch unity_root fs D0 (head 0%N sl) = Some t /\ om_get commitments k = Some (root t).
Variables (theta : F) (poly_ids : seq (seq (nat * nat))) (U : seq F) (V : seq (seq F)).
Hypothesis sizesU : size U = size V.
Hypothesis sizesP : size poly_ids = size U.
Variable values : nat * nat -> seq F.
Hypothesis gvalues : batch_values unity_root g D0 values.
Hypothesis resolved : {in flatten poly_ids, forall id, exists2 fs, om_get g id.1 = Some fs & (id.2 < size fs)%N}.
Hypothesis nonzero : forall x v, x \in D0 -> v \in V -> (Poly v).[x] != 0.
Notation query_point c := (c ^+ ((modulus - 1) %/ 2 ^ K)).
Notation inside := (fun c => query_point c \in D0).
(** A final polynomial made after the queries are known: it only has to have the right value at one point per query. *)
Lemma fri_late (q : seq F) tr : size q = (2 ^ K)%N -> (0 < lambda)%N -> (lambda <= 2 ^ (dl.+1 - sumn sl))%N ->
  (forall i, (i < 2 ^ K)%N ->
    nth 0 q i = combination theta (fun id => nth 0 (values id) i) (ur K ^+ i) 0 (zip poly_ids (zip U V))) ->
  exists rts al tr1, [/\ size rts = size sl, round_challenges absorb challenge sl rts tr = Some (al, tr1) &
  forall pw tr2, (if ug then exists2 w, pw = Some w & grind_verify tr1 w gp = (true, tr2) else tr2 = tr1) ->
    all inside (challenges challenge lambda tr2).1 ->
    exists pr, [/\ pf_roots pr = rts, pf_pow pr = pw &
      verify_eval hash_leaf hash_node absorb challenge grind_verify modulus P pr commitments theta poly_ids U V tr =
        Some (true, (challenges challenge lambda tr2).2)]].
Proof.
move=> sq hl0 hl qE.
have := steps; rewrite /check_step_list /=; case esl : sl => [|step sl'] // /and4P[hpos _ _ _].
have {}hpos : all (fun s => 0 < s)%N sl by rewrite esl.
have sl0 : sl != [::] by rewrite esl.
rewrite -esl; have [m em] : exists m, head 0%N sl = m.+1 by exists step.-1; move: hpos; rewrite esl /= => /andP[h _]; rewrite prednK.
have r0 : (0 < sumn sl)%N by move: hpos; rewrite esl /= => /andP[h _]; rewrite ltn_addr.
have [k ek] : exists k, K = k.+1 by exists K.-1; rewrite prednK // (leq_trans r0).
have hm : (m <= k)%N.
  rewrite -ltnS -ek -em (leq_trans _ hsumK) // esl /= leq_addr.
  by [].
have Qv : vals (Dfs q) K q by [].
have [fts [al [fin [tr1 [h1 h2 h3 h4 [[tl h5] h6]]]]]] := rounds_ok hash_leaf hash_node absorb challenge roots two hsumK tr sl0 hpos (add0n _) (addn0 _) Qv.
have eP : P = FriParams lambda ug gp (2 ^ dl - 1) (calculate_domain_set unity_root K (sumn sl)) (sumn sl) sl by rewrite eK.
have cm : forall key fs, om_get g key = Some fs -> exists2 t, om_get trees key = Some t &
  precommit_batch unity_root fs D0 m.+1 = Some t /\ om_get commitments key = Some (root t) by move=> key fs; rewrite -em; apply: committed.
exists [seq root ft.2 | ft <- fts], al, tr1; split=> //; first by rewrite size_map (commit_size h1).
move=> pw tr2 hw hall.
set Kr := (K - sumn sl)%N in h6; have hKr : (Kr <= K)%N by rewrite leq_subr.
pose xs := [seq index (query_point c) D0 | c <- (challenges challenge lambda tr2).1].
pose S := undup [seq (x %% 2 ^ Kr)%N | x <- xs]; pose fv := fold_many K al q.
pose pol := lagrange_interpolation (zip [seq ur Kr ^+ i | i <- S] [seq nth 0 fv i | i <- S]).
pose final := mkseq (fun i => pol`_i) lambda.
have sS : (size S <= lambda)%N.
  apply: leq_trans (size_undup _) _; rewrite !size_map; clear; elim: (lambda) tr2 => //= n ih tr.
  by case: (challenge tr) => c tr'; case e : (challenges challenge n tr') => [a b] /=; have := ih tr'; rewrite e.
have spol : (size pol <= lambda)%N by apply: leq_trans (lagrange_size _) _; rewrite size_zip !size_map minnn.
have efin : Poly final = pol by apply/polyP => i; rewrite coef_Poly; case: (ltnP i lambda) => hi; [rewrite nth_mkseq|rewrite !nth_default ?size_mkseq // (leq_trans spol)].
have uS : uniq [seq ur Kr ^+ i | i <- S].
  rewrite map_inj_in_uniq ?undup_uniq // => i j; rewrite !mem_undup => /mapP[a _ ->] /mapP[b _ ->] /eqP.
  by rewrite (eq_prim_root_expr (ur_prim roots hKr)) !modn_mod => /eqP.
have hval x : x \in xs -> peval final (ur Kr ^+ (x %% 2 ^ Kr)) = nth 0 fv (x %% 2 ^ Kr).
  move=> hx; have hS : (x %% 2 ^ Kr)%N \in S by rewrite mem_undup; apply: map_f.
  have hi : (index (x %% 2 ^ Kr)%N S < size S)%N by rewrite index_mem.
  rewrite pevalE efin; have := @lagrange_at _ [seq ur Kr ^+ i | i <- S] [seq nth 0 fv i | i <- S] (index (x %% 2 ^ Kr)%N S) uS.
  by rewrite !size_map => /(_ erefl hi); rewrite !(nth_map 0%N) // nth_index.
have hdeg : degree_ok P final.
  rewrite /degree_ok /= size_mkseq hl0 /= subn1 prednK ?expn_gt0 // -expnS.
  by rewrite (leq_trans (leq_mul hl (leqnn _))) // -expnD subnK.
have ro : forall x, (x < 2 ^ K)%N -> x \in xs -> exists2 rps, prove_rounds (calculate_domain_set unity_root K (sumn sl)) final sl fts x 0 = Some rps &
  verify_rounds (calculate_domain_set unity_root K (sumn sl)) al final sl [seq root ft.2 | ft <- fts] rps (ur K ^+ x) x 0 (rowvals q k m x) = Some true.
  move=> x hx hxs; have := h6 final x [::] hx erefl; rewrite em ek /= => h; apply: h; rewrite -ek; exact: hval.
have {}hall : all (fun c => (query_point c \in D0) && (index (query_point c) D0 \in xs)) (challenges challenge lambda tr2).1.
  by apply/allP => c hc; rewrite (allP hall c hc) /=; apply: map_f.
have [qs _ hv] := queries_ok dl lambda gp ug ek hm gsorted cm sizesU sizesP gvalues resolved nonzero qE sl0 em r0 ro hall.
exists (FriProof [seq root ft.2 | ft <- fts] final qs pw); split=> //.
rewrite /verify_eval steps sizesP sizesU !eqxx [_ && _]/= [pf_final _]/= hdeg [~~ true]/=.
rewrite [fp_step_list _]/= [pf_roots _]/= h3 {1}/obnd [fp_use_grinding _]/= [snd (al, _)]/= [fst (al, _)]/= [pf_pow _]/= [fp_grinding_parameter _]/= [fp_lambda _]/=.
have hv' := hv [::] pw; rewrite cat0s [size _]/= -eP in hv'.
have -> : (if ug then obnd pw (fun w : Pw => Some (grind_verify tr1 w gp)) else Some (true, tr1)) = Some (true, tr2); last exact: hv'.
by case: (ug) hw => [[w -> /= ->]|->].
Qed.
Variables (Q : fpoly F) (q : seq F) (tree_Q : tree F).
(** The bound that the degree check enforces is twice the intended one. *)
Hypothesis Qlow : below (2 ^ dl.+1) Q D0.
Hypothesis Qvalues : on_domain unity_root Q D0 = Some q.
Hypothesis Qtree : precommit unity_root Q D0 (head 0%N sl) = Some tree_Q.
Hypothesis qE : forall i, (i < 2 ^ K)%N ->
  nth 0 q i = combination theta (fun id => nth 0 (values id) i) (ur K ^+ i) 0 (zip poly_ids (zip U V)).
Lemma fri_complete tr : exists rts al tr1, [/\ size rts = size sl, round_challenges absorb challenge sl rts tr = Some (al, tr1) &
  forall w, (if ug then omap (fun r => (Some r.1, r.2)) (grind tr1 gp) else Some (None, tr1)) = w ->
  if w is Some (pw, tr2) then
    let r := challenges challenge lambda tr2 in
    if all inside r.1 then
      exists2 pr, proof_eval hash_leaf hash_node absorb challenge grind modulus unity_root P g Q trees tree_Q tr = Some (pr, r.2) &
        ((ug -> forall w, pw = Some w -> grind_verify tr1 w gp = (true, tr2)) ->
        verify_eval hash_leaf hash_node absorb challenge grind_verify modulus P pr commitments theta poly_ids U V tr = Some (true, r.2))
    else proof_eval hash_leaf hash_node absorb challenge grind modulus unity_root P g Q trees tree_Q tr = None
  else proof_eval hash_leaf hash_node absorb challenge grind modulus unity_root P g Q trees tree_Q tr = None].
Proof.
have := steps; rewrite /check_step_list /=; case esl : sl => [|step sl'] // /and4P[hpos _ _ _].
have {}hpos : all (fun s => 0 < s)%N sl by rewrite esl.
have sl0 : sl != [::] by rewrite esl.
rewrite -esl; have [m em] : exists m, head 0%N sl = m.+1 by exists step.-1; move: hpos; rewrite esl /= => /andP[h _]; rewrite prednK.
have r0 : (0 < sumn sl)%N by move: hpos; rewrite esl /= => /andP[h _]; rewrite ltn_addr.
have [k ek] : exists k, K = k.+1 by exists K.-1; rewrite prednK // (leq_trans r0).
have hm : (m <= k)%N.
  rewrite -ltnS -ek -em (leq_trans _ hsumK) // esl /= leq_addr.
  by [].
have [Qv Qb] : vals Q K q /\ bounded Q K (2 ^ dl.+1).
  move: Qlow Qvalues; case: (Q) => [c|u] /=.
    move=> /andP[c0 hc]; rewrite size_dom; case: ifP => // hK -[<-]; split=> //; split=> //; by rewrite -size_eq0 -lt0n.
  move=> [p [hp eu]]; have su : size u = (2 ^ K)%N by rewrite eu size_map size_dom.
  rewrite su size_dom eqxx => -[<-]; split=> //; rewrite eu.
  exists (if p == 0 then [:: 0] else polyseq p); case: (boolP (p == 0)) => [/eqP->|p0]; split=> //.
  - by rewrite /= expn_gt0.
  - by apply: eq_map => x; rewrite pevalE /= cons_poly_def mul0r add0r.
  - by rewrite -size_eq0 size_poly_eq0.
  by apply: eq_map => x; rewrite pevalE polyseqK.
have tQ : tree_Q = leaf_tree [:: q] K.-1 (head 0%N sl).-1.
  move: Qv Qtree; rewrite em ek /= => Qv'; by rewrite (precommitE hm Qv') => -[<-].
have [fts [al [fin [tr1 [h1 h2 h3 h4 [[tl h5] h6]]]]]] := rounds_ok hash_leaf hash_node absorb challenge roots two hsumK tr sl0 hpos (add0n _) (addn0 _) Qv.
have hb := commit_bounded hsumK (add0n _) (addn0 _) Qv Qb h1.
have Kr : (K - sumn sl <= K)%N by rewrite leq_subr.
have hfin := final_size Kr h4 hb; have hval := finalE Kr h4.
set final := final_polynomial unity_root fin in hfin hval.
have hdeg : degree_ok P final.
  rewrite /degree_ok /=; move: hfin => /andP[-> hle] /=.
  rewrite subn1 prednK ?expn_gt0 // -expnS (leq_trans (leq_mul hle (leqnn _))) // halved_pow -expnD leq_exp2l //.
  by rewrite addnC -maxnE geq_max hsum leqnn.
have eP : P = FriParams lambda ug gp (2 ^ dl - 1) (calculate_domain_set unity_root K (sumn sl)) (sumn sl) sl by rewrite eK.
have ro : forall x, (x < 2 ^ K)%N -> predT x -> exists2 rps, prove_rounds (calculate_domain_set unity_root K (sumn sl)) final sl fts x 0 = Some rps &
  verify_rounds (calculate_domain_set unity_root K (sumn sl)) al final sl [seq root ft.2 | ft <- fts] rps (ur K ^+ x) x 0 (rowvals q k m x) = Some true.
  move=> x hx _; have := h6 final x [::] hx erefl; rewrite em ek /= => h; apply: h; rewrite -ek; apply: hval.
  by rewrite ltn_mod expn_gt0.
have cm : forall key fs, om_get g key = Some fs -> exists2 t, om_get trees key = Some t &
  precommit_batch unity_root fs D0 m.+1 = Some t /\ om_get commitments key = Some (root t) by move=> key fs; rewrite -em; apply: committed.
exists [seq root ft.2 | ft <- fts], al, tr1; split=> //; first by rewrite size_map (commit_size h1).
move=> w hw.
have peq : proof_eval hash_leaf hash_node absorb challenge grind modulus unity_root P g Q trees tree_Q tr =
  olet w <- w; olet q <- prove_queries hash_leaf hash_node challenge modulus unity_root P g trees fts final lambda w.2;
  Some (FriProof [seq root ft.2 | ft <- fts] final q.1 w.1, q.2).
  by rewrite /proof_eval steps [fp_D _]/= [fp_step_list _]/= [fp_use_grinding _]/= [fp_grinding_parameter _]/= [fp_lambda _]/= -eK tQ h1 {1}/obnd hw.
case: w hw peq => [[pw tr2]|] hw peq; last by rewrite peq.
rewrite {1}/obnd [fst (pw, _)]/= [snd (pw, _)]/= in peq; cbv zeta; case: ifP => hall; rewrite peq.
  have {}hall : all (fun c => (query_point c \in D0) && predT (index (query_point c) D0)) (challenges challenge lambda tr2).1.
    by apply: sub_all hall => c /= ->.
  have [qs hq hv] := queries_ok dl lambda gp ug ek hm gsorted cm sizesU sizesP gvalues resolved nonzero qE sl0 em r0 ro hall.
  exists (FriProof [seq root ft.2 | ft <- fts] final qs pw); first by rewrite eP hq.
  move=> hg; rewrite /verify_eval steps sizesP sizesU !eqxx [_ && _]/= [pf_final _]/= hdeg [~~ true]/=.
  rewrite [fp_step_list _]/= [pf_roots _]/= h3 {1}/obnd [fp_use_grinding _]/= [snd (al, _)]/= [fst (al, _)]/= [pf_pow _]/= [fp_grinding_parameter _]/= [fp_lambda _]/=.
  have hv' := hv [::] pw; rewrite cat0s [size _]/= -eP in hv'.
  have -> : (if ug then obnd pw (fun w : Pw => Some (grind_verify tr1 w gp)) else Some (true, tr1)) = Some (true, tr2); last exact: hv'.
  case: (ug) hg hw => hg hw; last by case: hw => _ ->.
  by case: (grind tr1 gp) hw => [[w tr3]|] //= [ew et]; rewrite -ew /= (hg isT).
by rewrite eP (queries_fail dl lambda gp ug g trees fts final sl0 em r0) ?hall.
Qed.
End Main.
End Complete.
