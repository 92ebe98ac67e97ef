(** C58: the list polynomial commitment is sound for arbitrary committed vectors. *)
From mathcomp Require Import all_ssreflect all_algebra.
From Verif.Model Require Import Base OrderedMap PlonkTable Domain FoldPolynomial MerkleTree Quotient PolysEvaluator Fri Lpc.
From Verif.Spec Require Import FriSpec ProximitySpec LpcSpec LpcProximitySpec.
From Verif.Proofs Require Import NatTac FieldTac PermProofs KzgProofs PackingProofs PlaceholderRun DomainProofs FriIndex FriLayout FriFold FriRounds
  FriComplete FriSound Proximity ProximityChain ProximityCount LpcProofs LpcProximity.
From Verif.Props Require Import C38_FriComplete C49_FriQuery C56_FriProximity.
Set Implicit Arguments.
Unset Strict Implicit.
Unset Printing Implicit Defensive.
Import GRing.Theory.
Local Open Scope ring_scope.

Section C58.
Variable F : fieldType.
Variable unity_root : nat -> F.
Notation dom j := (make_domain unity_root (2 ^ j)).

(** Few challenges hide a wrong claim or errors of the vectors, whatever the vectors and the claims. *)
Theorem C58_few K b E vec (cls : seq (claim F)) (thetas : seq F) : roots_ok unity_root K ->
  (forall o, List.In o cls -> cl_point o \notin dom K) -> ((size cls).+1 * E + b < 2 ^ K)%N ->
  uniq thetas -> (forall theta, theta \in thetas -> hides_claims (dom K) vec b E cls theta) ->
  (size thetas <= (size cls).-1 + (size cls).-1 * (size cls * E))%N.
Proof.
move=> ro hp hE; have uD := uniq_dom ro (leqnn K); apply: (claims_few uD hp).
by rewrite size_dom.
Qed.

(** If the vectors are those of polynomials, then explained claims are right for them. *)
Theorem C58_values K b E vec (cls : seq (claim F)) X p (f : nat * nat -> {poly F}) : roots_ok unity_root K ->
  (E + b < 2 ^ K)%N -> uniq X -> all (fun i => i < 2 ^ K)%N X -> (2 ^ K <= size X + E)%N -> explains (dom K) vec b cls X p ->
  (forall o, List.In o cls -> (size (f (cl_id o)) <= b.+1)%N /\ vec (cl_id o) = [seq (f (cl_id o)).[x] | x <- dom K]) ->
  forall o, List.In o cls -> (f (cl_id o)).[cl_point o] = cl_value o.
Proof.
move=> ro hE uX hX sX hex hf o ho; have [p1 <- p3] := hex o ho; have [s1 e1] := hf o ho.
suff -> : f (cl_id o) = p (cl_id o) by [].
apply: (@poly_eq_on _ b.+1 _ _ [seq nth 0 (dom K) i | i <- X]) => //.
- rewrite map_inj_in_uniq // => i j hi hj /eqP; rewrite nth_uniq ?size_dom ?(allP hX) ?(uniq_dom ro (leqnn K)) //; by move/eqP.
- by rewrite size_map -(ltn_add2l E); apply: leq_trans hE _; rewrite addnC.
by move=> x /mapP[i hi ->]; rewrite -p3 // e1 (nth_map 0) // size_dom (allP hX).
Qed.

(** The commitment is binding: claims about the same vectors that are explained on large sets do not contradict each other. *)
Theorem C58_binding K b E vec (cls cls' : seq (claim F)) X X' p p' o o' : roots_ok unity_root K ->
  (2 * E + b < 2 ^ K)%N -> uniq X -> all (fun i => i < 2 ^ K)%N X -> (2 ^ K <= size X + E)%N -> explains (dom K) vec b cls X p ->
  uniq X' -> all (fun i => i < 2 ^ K)%N X' -> (2 ^ K <= size X' + E)%N -> explains (dom K) vec b cls' X' p' ->
  List.In o cls -> List.In o' cls' -> cl_id o = cl_id o' -> cl_point o = cl_point o' -> cl_value o = cl_value o'.
Proof.
move=> ro hE uX hX sX hex uX' hX' sX' hex' ho ho' eid ept.
have [p1 <- p3] := hex o ho; have [q1 <- q3] := hex' o' ho'; rewrite -ept.
suff -> : p (cl_id o) = p' (cl_id o') by [].
pose Y := [seq i <- X | i \in X'].
have sY : (b < size Y)%N.
  have hu : (size Y + size [seq i <- X | i \notin X'] = size X)%N by rewrite !size_filter -(count_predC (fun i => i \in X') X).
  have : (size ([seq i <- X | i \notin X'] ++ X') <= size (iota 0 (2 ^ K)))%N.
    apply: uniq_leq_size.
      rewrite cat_uniq filter_uniq // uX' andbT /=; apply/hasPn => i hi; apply/negP => /=; by rewrite mem_filter hi.
    move=> i; rewrite mem_iota add0n mem_cat mem_filter => /orP[/andP[_ /(allP hX)]|/(allP hX')] //.
  rewrite size_cat size_iota => h2.
  clear -hu h2 hE sX sX'; move: (size Y) (size X) (size X') (size [seq _ <- _ | _]) (2 ^ K)%N hu h2 hE sX sX' => y x x' w n *; slia.
apply: (@poly_eq_on _ b.+1 _ _ [seq nth 0 (dom K) i | i <- Y]) => //; last first.
- by move=> x /mapP[i]; rewrite mem_filter => /andP[h1 h2] ->; rewrite -p3 // eid q3.
- by rewrite size_map.
rewrite map_inj_in_uniq ?filter_uniq // => i j; rewrite !mem_filter => /andP[_ hi] /andP[_ hj] /eqP.
by rewrite nth_uniq ?size_dom ?(allP hX) ?(uniq_dom ro (leqnn K)) //; move/eqP.
Qed.

Section Verifier.
Variables (Dg : eqType) (hash_leaf : seq F -> Dg) (hash_node : Dg -> Dg -> Dg).
Variables (T : Type) (absorb : T -> Dg -> T) (challenge : T -> F * T).
Variables (Pw : Type) (grind_verify : T -> Pw -> nat -> bool * T).
Variable modulus : nat.
Notation broken := (hash_broken hash_leaf hash_node).
Variables (sl : seq nat) (dl lambda expand gp : nat) (ug : bool).
Notation K := (dl + expand)%N.
Notation P := (fri_params_of unity_root sl dl lambda expand ug gp).
Notation verify := (lpc_verify_eval hash_leaf hash_node absorb challenge grind_verify modulus P).

(** Let an opening proof be accepted, and let the Merkle proofs of its queries open the leaves that the queries determine. Then,
    unless the hashing of the trees is broken, a challenge of FRI hides errors or theta hides a wrong claim: all queries fell into
    the set [X] of indices at which a query can succeed, and either more than [E] indices are outside of [X], or there are
    polynomials with the claimed values at the claimed points, whose values the committed vectors have on [X]. *)
Theorem C58_accepted (v : lpc_scheme F) z fp commitments batches ws tr tr' E :
  let cls := claims v z in
  let tt := challenge (foldl absorb tr [seq e.2 | e <- commitments]) in
  let b := (2 * 2 ^ dl)%N in
  roots_ok unity_root K -> (2%:R : F) != 0 -> (sumn sl <= K)%N -> (3 * E + b <= 2 ^ K)%N -> (E + b < 2 ^ K)%N ->
  (forall o, List.In o cls -> cl_point o \notin dom K) ->
  (forall k c, om_get commitments k = Some c ->
     exists2 vs, om_get batches k = Some vs & commits_to hash_leaf hash_node K (head 0%N sl) vs c) ->
  round_commitments hash_leaf hash_node K sl ws (pf_roots fp) ->
  verify v (z, fp) commitments tr = Some (true, tr') ->
  exists alphas tr1 tr2 ps U V, [/\ round_challenges absorb challenge sl (pf_roots fp) tt.2 = Some (alphas, tr1),
    if ug then exists2 w, pf_pow fp = Some w & grind_verify tr1 w gp = (true, tr2) else tr2 = tr1,
    verifier_groups v z tt.1 = Some (ps, U, V) &
    let x n := index (nth 0 (challenges challenge lambda tr2).1 n ^+ ((modulus - 1) %/ 2 ^ K)) (dom K) in
    (forall n q, (n < lambda)%N -> vget (pf_queries fp) n = Some q -> positions K sl q (x n)) ->
    [\/ broken, errors_hidden unity_root K b E sl alphas ws, hides_claims (dom K) (vector_of batches) b E cls tt.1 |
     exists X : seq nat, [/\ uniq X,
       forall i, i \in X <-> (i < 2 ^ K)%N /\ passes unity_root sl dl expand batches tt.1 ps U V (pf_final fp) alphas ws i,
       forall n, (n < lambda)%N -> x n \in X &
       (size X + E < 2 ^ K)%N \/ exists p, explains (dom K) (vector_of batches) b cls X p]]].
Proof.
move=> cls tt b ro two hK hE hE2 hp com rc; rewrite /lpc_verify_eval -/tt.
case: tt => theta tr0; case hg : (verifier_groups v z theta) => [[[ps U] V]|] //= hv.
have [alphas [tr1 [tr2 [h1 h2 h3]]]] := C56_accepted ro two hK hE com rc hv.
exists alphas, tr1, tr2, ps, U, V; split=> // hpos; case: (h3 hpos) => [hb|he|[X [uX hX hall hq]]]; [by constructor 1|by constructor 2|].
have hlt : all (fun i => i < size (dom K))%N X by apply/allP => i /hX[]; rewrite size_dom.
case: hq => [hs|[q sq hq]]; first by constructor 4; exists X; split=> //; left.
case: (leqP (2 ^ K) (size X + E)) => sX; last by constructor 4; exists X; split=> //; left.
have [_ _ _ hcomb _] := verifier_groups_inv hg.
have sD : size (dom K) = (2 ^ K)%N by rewrite size_dom.
have g1 : (E + b < size (dom K))%N by rewrite sD.
have g2 : (size (dom K) <= size X + E)%N by rewrite sD.
have g3 : forall i, i \in X -> quotients theta (fun id => nth 0 (vector_of batches id) i) (nth 0 (dom K) i) 0 cls = q.[nth 0 (dom K) i].
  by move=> i hi; rewrite -hcomb hq.
have [hh|hex] := combined_explained (uniq_dom ro (leqnn K)) g1 hp sq uX hlt g2 g3; first by constructor 3.
by constructor 4; exists X; split=> //; right.
Qed.
End Verifier.
End C58.

(** ** An accepted run on a domain of eight points: two polynomials opened at 3, one at 5 *)
Section Witness.
Let F := [fieldType of 'F_17].
Notation D j := (make_domain C38_root (2 ^ j)).
Definition C58_params := fri_params_of C38_root [:: 1; 1]%N 1 2 2 true 3.
Definition C58_fs0 : seq (fpoly F) := [:: Coef [:: 1; 2; 3]; Coef [:: 6; 7]].
Definition C58_fs7 : seq (fpoly F) := [:: Coef [:: 2; 1]].
Definition C58_g : omapT (seq (fpoly F)) := [:: (0%N, C58_fs0); (7%N, C58_fs7)].
Definition C58_tree (fs : seq (fpoly F)) : tree F := odflt (Tree 0 [::]) (precommit_batch C38_root fs (D 3) 1).
Definition C58_trees : omapT (tree F) := [seq (e.1, C58_tree e.2) | e <- C58_g].
Definition C58_commitments : omapT F := [seq (e.1, tr_root C38_leaf C38_node e.2) | e <- C58_trees].
Definition C58_batches : omapT (seq (seq F)) := [seq (e.1, [seq if f is Coef c then fft (D 3) c else [::] | f <- e.2]) | e <- C58_g].
Definition C58_v : lpc_scheme F := LpcScheme (Evaluator [::] [::] [::] [:: (0%N, [:: [:: 3]; [:: 3]]); (7%N, [:: [:: 5]])]) [::] 0 [::] [::].
(** The values at 3 and 5 *)
Definition C58_z : eval_storage F := [:: (0%N, [:: [:: 34%:R]; [:: 27%:R]]); (7%N, [:: [:: 7%:R]])].
(** Theta is 5. *)
Definition C58_tr : F := nth 0 [seq t <- [seq i%:R | i <- iota 0 17] | foldl C38_absorb t [seq e.2 | e <- C58_commitments] == 5%:R] 0.
Definition C58_Q : fpoly F := Coef [:: 11%:R + 35%:R + 25%:R; 3%:R].
Definition C58_run := proof_eval C38_leaf C38_node C38_absorb C38_challenge C38_grind 17 C38_root C58_params C58_g C58_Q C58_trees (C58_tree [:: C58_Q]) (C38_challenge 5%:R).2.
Definition C58_w0 : seq F := if C58_Q is Coef c then fft (D 3) c else [::].
Definition C58_root0 : F := odflt 0 (omap (tr_root C38_leaf C38_node) (precommit_values [:: C58_w0] 8 1)).
Definition C58_alpha : F := (C38_challenge (C38_absorb (C38_challenge 5%:R).2 C58_root0)).1.
Definition C58_w1 : seq F := folded_many C38_root 3 [:: C58_alpha] C58_w0.
Definition C58_root1 : F := odflt 0 (omap (tr_root C38_leaf C38_node) (precommit_values [:: C58_w1] 4 1)).
Definition C58_check (z : eval_storage F) (pr : fri_proof F F nat) :=
  lpc_verify_eval C38_leaf C38_node C38_absorb C38_challenge C38_grind_verify 17 C58_params C58_v (z, pr) C58_commitments C58_tr.
(** The leaves of the queries are opened. *)
Definition C58_opened (pr : fri_proof F F nat) : bool :=
  if round_challenges C38_absorb C38_challenge [:: 1; 1]%N (pf_roots pr) (C38_challenge 5%:R).2 is Some (_, tr1) then
    let cs := (challenges C38_challenge 2 (C38_grind_verify tr1 3 3).2).1 in
    all (fun n => if vget (pf_queries pr) n is Some q then positions 3 [:: 1; 1]%N q (C49_index (nth 0 cs n)) else false) (iota 0 2)
  else false.
Lemma C58_executed : if C58_run is Some (pr, tr') then
  [&& take 2 (pf_roots pr) == [:: C58_root0; C58_root1], C58_check C58_z pr == Some (true, tr'), C58_opened pr &
      omap fst (C58_check [:: (0%N, [:: [:: 3]; [:: 27%:R]]); (7%N, [:: [:: 7%:R]])] pr) == Some false] else false.
Proof. by vm_compute. Qed.
Lemma C58_outside : all (fun o => cl_point o \notin D 3) (claims C58_v C58_z) && (size (claims C58_v C58_z) == 3)%N.
Proof. by vm_compute. Qed.
Lemma C58_all (A : Type) (a : A -> bool) l : all a l -> forall o, List.In o l -> a o.
Proof. by elim: l => //= b l ih /andP[h1 h2] o [<-|/(ih h2)]. Qed.
Lemma C58_take (A : Type) (l : seq A) a b : take 2 l = [:: a; b] -> exists l', l = [:: a, b & l'].
Proof. by case: l => [|a' [|b' l]] // -[<- <-]; exists l. Qed.
Lemma C58_get (A : Type) (a b : A) k c : om_get [:: (0%N, a); (7%N, b)] k = Some c -> (k, c) = (0%N, a) \/ (k, c) = (7%N, b).
Proof. by rewrite /=; case: eqP => [<- [<-]|_]; [left|case: eqP => [<- [<-]|//]; right]. Qed.
(** The hypotheses of C58_accepted hold, with E = 0; with a wrong value the proof is not accepted. *)
Example C58_witness : [/\ roots_ok C38_root (1 + 2), (3 * 0 + 2 * 2 ^ 1 <= 2 ^ (1 + 2))%N, (0 + 2 * 2 ^ 1 < 2 ^ (1 + 2))%N,
  forall o, List.In o (claims C58_v C58_z) -> cl_point o \notin D (1 + 2) &
  exists pr tr', [/\ round_commitments C38_leaf C38_node (1 + 2) [:: 1; 1]%N [:: C58_w0; C58_w1] (pf_roots pr),
  (forall k c, om_get C58_commitments k = Some c -> exists2 vs, om_get C58_batches k = Some vs & commits_to C38_leaf C38_node (1 + 2) 1 vs c),
  C58_check C58_z pr = Some (true, tr'), C58_opened pr &
  omap fst (C58_check [:: (0%N, [:: [:: 3]; [:: 27%:R]]); (7%N, [:: [:: 7%:R]])] pr) = Some false]].
Proof.
split; [exact: C38_roots|by []|by []|by have /andP[h _] := C58_outside; exact: C58_all|].
have := C58_executed; case: C58_run => [[pr tr']|] // /and4P[/eqP h1 /eqP h2 h3 /eqP h4]; exists pr, tr'; split; [| |exact: h2|exact: h3|exact: h4].
- have [l ->] := C58_take h1; split; last split; last by [].
    split; first by vm_compute.
    exists (odflt (Tree 0 [::]) (precommit_values [:: C58_w0] 8 1)).
      by apply: C49_tree_some; vm_compute.
    by rewrite /C58_root0; have /C49_tree_some -> : isSome (precommit_values [:: C58_w0] 8 1) by vm_compute.
  split; first by vm_compute.
  exists (odflt (Tree 0 [::]) (precommit_values [:: C58_w1] 4 1)).
    by apply: C49_tree_some; vm_compute.
  by rewrite /C58_root1; have /C49_tree_some -> : isSome (precommit_values [:: C58_w1] 4 1) by vm_compute.
move=> k c hk; have [] := @C58_get F (tr_root C38_leaf C38_node (C58_tree C58_fs0)) (tr_root C38_leaf C38_node (C58_tree C58_fs7)) k c hk => -[-> ->].
  exists [seq fft (D 3) c | c <- [:: [:: 1; 2; 3]; [:: 6; 7]]]; first by [].
  split; first by vm_compute.
  have hs : isSome (precommit_values [seq fft (D 3) c | c <- [:: [:: 1; 2; 3]; [:: 6; 7]]] 8 1) by vm_compute.
  exists (C58_tree C58_fs0); last by [].
  exact: (C49_tree_some hs).
exists [:: fft (D 3) [:: 2; 1]]; first by [].
split; first by vm_compute.
have hs : isSome (precommit_values [:: fft (D 3) [:: 2; 1]] 8 1) by vm_compute.
exists (C58_tree C58_fs7); last by [].
exact: (C49_tree_some hs).
Qed.
(** Two wrong claims about zero vectors, which the challenge 1 hides; by C58_few no other challenge does. *)
Definition C58_wrong : seq (claim F) := [:: Claim 3%:R (0, 0)%N 1; Claim 3%:R (0, 1)%N (- 1)].
Lemma C58_cancelled : all (fun i => nth 0 (combined_vector (D 3) (fun _ => nseq 8 0) C58_wrong 1) i == 0) (iota 0 8).
Proof. by vm_compute. Qed.
Lemma C58_agreement : agreement (D 3) (combined_vector (D 3) (fun _ => nseq 8 0) C58_wrong 1) 0 = iota 0 8.
Proof.
rewrite /agreement size_dom -[RHS](all_filterP C58_cancelled); apply: eq_filter => i; by rewrite horner0.
Qed.
Example C58_hidden_witness : [/\ roots_ok C38_root 3, forall o, List.In o C58_wrong -> cl_point o \notin D 3, (3 * 1 + 4 < 2 ^ 3)%N &
  hides_claims (D 3) (fun _ => nseq 8 0) 4 1 C58_wrong 1].
Proof.
split; [exact: C38_roots|by apply: C58_all; vm_compute|by []|].
exists 0; rewrite C58_agreement size_poly0; split; [by []|by rewrite size_dom|].
case=> p /(_ _ (or_introl erefl))[]; cbn [cl_id cl_point cl_value] => sp hp ha.
have e0 : p (0, 0)%N = 0.
  apply: (@poly_eq_on _ 5 _ _ (D 3)); [exact: (uniq_dom C38_roots (leqnn 3))|exact: sp|by rewrite size_poly0|by rewrite size_dom|].
  move=> x hx; rewrite horner0 -(nth_index 0 hx) -ha; first by rewrite nth_nseq; case: ifP.
  by rewrite mem_iota leq0n add0n -(size_dom C38_root 3) index_mem hx.
move: hp; rewrite e0 horner0 => /esym/eqP; rewrite oner_eq0; exact.
Qed.
(** A vector with an error, and a claim about it that is explained at the other indices, as C58_values and C58_binding suppose *)
Example C58_explained_witness : [/\ (2 * 1 + 4 < 2 ^ 3)%N, uniq (iota 1 7), all (fun i => i < 2 ^ 3)%N (iota 1 7), (2 ^ 3 <= size (iota 1 7) + 1)%N &
  explains (D 3) (fun _ => C56_w) 4 [:: Claim 3%:R (0, 0)%N 5%:R] (iota 1 7) (fun _ => 5%:R%:P)].
Proof.
split; [by []..|]; have h : all (fun i => nth 0 C56_w i == 5%:R) (iota 1 7) by vm_compute.
move=> o [<-|[]] /=; split; [exact: leq_trans (size_polyC_leq1 _) _|exact: hornerC|] => i hi.
by rewrite hornerC; apply/eqP; exact: (allP h).
Qed.
End Witness.
Print Assumptions C58_few.
Print Assumptions C58_values.
Print Assumptions C58_binding.
Print Assumptions C58_accepted.
