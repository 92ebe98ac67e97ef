(** C49: what an accepted FRI proof says about the committed vectors. *)
From mathcomp Require Import all_ssreflect all_algebra.
From Verif.Model Require Import Base OrderedMap Domain FoldPolynomial MerkleTree Quotient Fri.
From Verif.Spec Require Import FriSpec.
From Verif.Proofs Require Import NatTac FieldTac PermProofs KzgProofs PackingProofs PlaceholderRun DomainProofs FriIndex FriLayout FriFold FriRounds FriComplete FriSound.
From Verif.Props Require Import C38_FriComplete.
Set Implicit Arguments.
Unset Strict Implicit.
Unset Printing Implicit Defensive.
Import GRing.Theory.
Local Open Scope ring_scope.

Section C49.
Variable F : fieldType.
Variables (Dg : eqType) (hash_leaf : seq F -> Dg) (hash_node : Dg -> Dg -> Dg).
Variables (T : Type) (absorb : T -> Dg -> T) (challenge : T -> F * T).
Variables (Pw : Type) (grind_verify : T -> Pw -> nat -> bool * T).
Variables (modulus : nat) (unity_root : nat -> F).
Notation dom j := (make_domain unity_root (2 ^ j)).
Notation verify := (verify_eval hash_leaf hash_node absorb challenge grind_verify modulus).
Notation broken := (hash_broken hash_leaf hash_node).

(** The vector of the polynomial [id] in the committed [batches] *)
Definition vector_of (batches : omapT (seq (seq F))) (id : nat * nat) : seq F := nth [::] (odflt [::] (om_get batches id.1)) id.2.
(** At the index [i] the combination is defined and [w] has its value. *)
Definition combined_at (batches : omapT (seq (seq F))) (theta : F) poly_ids U V (K : nat) (w : seq F) (i : nat) : Prop :=
  let x := nth 0 (dom K) i in
  [/\ {in flatten poly_ids, forall id, exists2 vs, om_get batches id.1 = Some vs & (id.2 < size vs)%N},
      all (fun v => (Poly v).[x] != 0) V &
      nth 0 w i = combination theta (fun id => nth 0 (vector_of batches id) i) x 0 (zip poly_ids (zip U V))].

Lemma challenges_size n : forall tr, size (challenges challenge n tr).1 = n.
Proof. by elim: n => //= n ih tr; case: (challenge tr) => a tr1; move: (ih tr1); case: (challenges _ n tr1) => s tr2 /= ->. Qed.
Lemma round_challenges_size sl : forall roots tr r, round_challenges absorb challenge sl roots tr = Some r -> size r.1 = sumn sl.
Proof.
elim: sl => [|s sl ih] [|rt roots] tr r //=; try by case=> <-.
move: (challenges_size s (absorb tr rt)); case: (challenges _ _ _) => al tr1 /= hs; case/olP=> r1 /ih h [<-].
by rewrite /= size_cat hs h.
Qed.
Lemma queries_inv (P : fri_params F) commitments theta poly_ids U V alphas (pr : fri_proof F Dg Pw) n : forall id tr tr',
  verify_queries hash_leaf hash_node challenge modulus P commitments theta poly_ids U V alphas pr n id tr = Some (true, tr') ->
  forall i, (i < n)%N -> exists2 q, vget (pf_queries pr) (id + i) = Some q &
    verify_query hash_leaf hash_node modulus P commitments theta poly_ids U V alphas pr q (nth 0 (challenges challenge n tr).1 i) = Some true.
Proof.
elim: n => //= n ih id tr tr'; case: (challenge tr) => c tr1 /olP[q hq] /olP[[] hv] //= hrest i.
move: (ih _ _ _ hrest); case: (challenges _ n tr1) => cs tr2 /= {}ih; case: i => [|i] hi; first by exists q; rewrite ?addn0.
by rewrite addnS -addSn; apply: ih.
Qed.

Section Params.
Variables (sl : seq nat) (dl lambda expand gp : nat) (ug : bool).
Notation K := (dl + expand)%N.
Notation P := (fri_params_of unity_root sl dl lambda expand ug gp).

(** Every query of an accepted proof whose Merkle proofs open the leaves that the query determines: the query point is in the
    domain; the first vector has the value of the combination at every point of the coset; each folded vector has the value
    of the next one, the last one that of the final polynomial; unless the hashing of the trees is broken. *)
Theorem C49_accepted commitments batches (pr : fri_proof F Dg Pw) ws theta poly_ids U V tr tr' :
  roots_ok unity_root K -> (2%:R : F) != 0 -> (sumn sl <= K)%N ->
  (forall k c, om_get commitments k = Some c ->
     exists2 vs, om_get batches k = Some vs & commits_to hash_leaf hash_node K (head 0%N sl) vs c) ->
  round_commitments hash_leaf hash_node K sl ws (pf_roots pr) ->
  verify P pr commitments theta poly_ids U V tr = Some (true, tr') ->
  exists alphas tr1 tr2, [/\ round_challenges absorb challenge sl (pf_roots pr) tr = Some (alphas, tr1),
    if ug then exists2 w, pf_pow pr = Some w & grind_verify tr1 w gp = (true, tr2) else tr2 = tr1 &
    forall n, (n < lambda)%N -> exists2 q, vget (pf_queries pr) n = Some q &
      let point := nth 0 (challenges challenge lambda tr2).1 n ^+ ((modulus - 1) %/ 2 ^ K) in let x := index point (dom K) in
      positions K sl q x ->
      point \in dom K /\ (broken \/
        (forall i, (i < 2 ^ K)%N -> (i == x %[mod 2 ^ (K - head 0%N sl)])%N ->
          combined_at batches theta poly_ids U V K (head [::] ws) i) /\
        consistent_at unity_root (Poly (pf_final pr)) K sl alphas ws x)].
Proof.
move=> ro two hK com rc; rewrite /verify_eval => /ogP[hs] /ogP[/andP[/eqP hU /eqP hP]]; case: ifP => // _.
case/olP=> -[alphas tr1] hch /olP[[ok tr2] hg]; case: ok hg => //= hg hq.
exists alphas, tr1, tr2; split=> //.
  by move: hg; case: (ug) => /=; [case/olP=> w hw [e]; exists w|case=> ->].
move=> n hn; have [q h1 h2] := queries_inv hq hn; exists q; first by rewrite -h1 add0n.
cbv zeta=> hpos.
have := hs; rewrite /check_step_list [fp_step_list _]/=; case E : sl => [|s sl'] //; rewrite -E => /and4P[hall _ _ _].
have hsl : sl != [::] by rewrite E.
case: s E => [|m] E; first by move: hall; rewrite E.
have hm : (m < K)%N by rewrite (leq_trans _ hK) // E /= addSn ltnS leq_addr.
have eK : K = K.-1.+1 by rewrite prednK // (leq_ltn_trans _ hm).
have hmk : (m <= K.-1)%N by rewrite -ltnS -eK.
have hh : head 0%N sl = m.+1 by rewrite E.
rewrite hh in com.
have hsz : size alphas = sumn sl by exact: (round_challenges_size hch).
have [hin hc] := query_sound ro two hK eK hmk com hU (esym hP) hsl hh hall erefl hsz rc hpos h2.
split=> //; have ek : (K - head 0 sl = K.-1 - m)%N by rewrite hh {1}eK subSS.
case: hc => [|[c1 c2]]; [by left|right; split=> //].
move=> i hi; rewrite ek => him; have [d1 d2 d3] := c1 i hi him; by split; rewrite ?nth_dom.
Qed.
End Params.
End C49.

(** ** A wrong leaf: the verifier does not compare the position in a Merkle proof with the query. *)
Section Position.
Let F := [fieldType of 'F_17].
(** Hashing without collisions: the digest is the tree itself. *)
Definition C49_Dg : eqType := [eqType of GenTree.tree (seq F)].
Definition C49_leaf (s : seq F) : C49_Dg := GenTree.Leaf s.
Definition C49_node (a b : C49_Dg) : C49_Dg := GenTree.Node 0 [:: a; b].
Lemma C49_not_broken : ~ hash_broken C49_leaf C49_node.
Proof. by case=> [[a [b [a' [b' [ne [e1 e2]]]]]]|[s [s' [ne [e]]]]|[s [a [b]]]] //; apply: ne; rewrite ?e1 ?e2 ?e. Qed.
(** The committed vector, on a domain of four points: constant on each coset, with two values *)
Definition C49_v : seq F := [:: 5; 7; 5; 7].
Definition C49_tree : tree F := Tree 1 [:: [:: 5; 5]; [:: 7; 7]].
Definition C49_commitment : C49_Dg := tr_root C49_leaf C49_node C49_tree.
Definition C49_path : merkle_proof C49_Dg := MerkleProof C49_commitment 0 (merkle_path C49_node 1 (tr_leaf C49_leaf C49_tree) 0).
(** One answer for all queries: the leaf at position 0 *)
Definition C49_query : query_proof F C49_Dg :=
  QueryProof [:: (0%N, InitialProof [:: [:: (5, 5)]] C49_path)] [:: RoundProof [:: (5, 5)] C49_path].
Definition C49_proof (lambda : nat) : fri_proof F C49_Dg nat := FriProof [:: C49_commitment] [:: 5] (nseq lambda C49_query) None.
Definition C49_params (lambda : nat) := fri_params_of C38_root [:: 1]%N 0 lambda 2 false 0.
Lemma C49_commits : commits_to C49_leaf C49_node 2 1 [:: C49_v] C49_commitment.
Proof.
split; first by [].
have e : precommit_values [:: C49_v] (2 ^ 2) 1 = Some C49_tree by rewrite (@precommit_valuesE _ [:: C49_v] 1 0).
by exists C49_tree.
Qed.
Lemma C49_not_low (p : {poly F}) : (size p <= 2)%N -> C49_v <> [seq p.[x] | x <- make_domain C38_root 4].
Proof.
move=> hp; rewrite /make_domain [map _ (iota _ _)]/= [map _ _]/= => -[e0 e1 e2 _].
have [r0 r1] : root (p - 5%:P) (C38_root 4 ^+ 0) /\ root (p - 5%:P) (C38_root 4 ^+ 2).
  by rewrite !rootE !hornerE -e0 -e2 subrr.
have p5 : p - 5%:P = 0.
  apply: (@roots_geq_poly_eq0 _ _ [:: C38_root 4 ^+ 0; C38_root 4 ^+ 2]) => /=; [by rewrite r0 r1|by vm_compute|].
  by rewrite (leq_trans (size_add _ _)) // geq_max hp size_opp (leq_trans (size_polyC_leq1 _)).
have : (p - 5%:P).[C38_root 4 ^+ 1] = 0 by rewrite p5 horner0.
by rewrite !hornerE -e1 => /eqP.
Qed.
Lemma C49_els (z : F) : z \in [seq i%:R | i <- iota 0 17].
Proof. by apply/mapP; exists (z : nat); rewrite ?mem_iota ?ltn_ord // natr_Zp. Qed.
Lemma C49_every alpha c : c ^+ 4 \in make_domain C38_root 4 ->
  verify_query C49_leaf C49_node 17 (C49_params 1) [:: (0%N, C49_commitment)] (1 : F) [:: [:: (0, 0)]]%N [:: 0] [:: [:: 1]] [:: alpha]
    (C49_proof 1) C49_query c = Some true.
Proof.
have els := C49_els; have : all (fun a : F => all (fun c : F => (c ^+ 4 \in make_domain C38_root 4) ==>
  (verify_query C49_leaf C49_node 17 (C49_params 1) [:: (0%N, C49_commitment)] (1 : F) [:: [:: (0, 0)]]%N [:: 0] [:: [:: 1]] [:: a]
    (C49_proof 1) C49_query c == Some true)) [seq i%:R | i <- iota 0 17]) [seq i%:R | i <- iota 0 17] by vm_compute.
by move/allP/(_ _ (els alpha))/allP/(_ _ (els c))/implyP => h /h/eqP.
Qed.
Lemma C49_queries (T : Type) (challenge : T -> F * T) lambda alpha n : forall id tr, (id + n <= lambda)%N ->
  all (fun c => c ^+ 4 \in make_domain C38_root 4) (challenges challenge n tr).1 ->
  exists tr', verify_queries C49_leaf C49_node challenge 17 (C49_params lambda) [:: (0%N, C49_commitment)] (1 : F) [:: [:: (0, 0)]]%N [:: 0] [:: [:: 1]]
    [:: alpha] (C49_proof lambda) n id tr = Some (true, tr').
Proof.
elim: n => [|n ih] id tr hid; first by exists tr.
rewrite [challenges _ _ _]/= [verify_queries _ _ _ _ _ _ _ _ _ _ _ _ _ _ _]/=; case: (challenge tr) => c tr1.
move: (ih id.+1 tr1); case: (challenges _ n tr1) => cs tr2; rewrite [fst _]/= [fst _]/= => {}ih /andP[hc hcs].
have [|tr' h] := ih _ hcs; first by rewrite addSn -addnS.
exists tr'; rewrite (vget_nth C49_query) ?size_nseq ?(leq_trans _ hid) // ?addnS ?ltnS ?leq_addr // {1}/obnd nth_nseq if_same.
have -> : verify_query C49_leaf C49_node 17 (C49_params lambda) [:: (0%N, C49_commitment)] (1 : F) [:: [:: (0, 0)]]%N [:: 0] [:: [:: 1]] [:: alpha]
    (C49_proof lambda) C49_query c = Some true by exact: C49_every.
exact: h.
Qed.

(** A proof with any number of queries is accepted, whatever the transcript, as long as the verifier can evaluate the queries at
    all (see C38), although the committed vector is not a polynomial with at most twice the number of coefficients that the
    parameters ask for, and is inconsistent with the final polynomial at the points of the other leaf. *)
Theorem C49_position_refuted : [/\ roots_ok C38_root (0 + 2), ~ hash_broken C49_leaf C49_node,
  commits_to C49_leaf C49_node 2 1 [:: C49_v] C49_commitment,
  (forall p : {poly F}, (size p <= 2 * (fp_max_degree (C49_params 1)).+1)%N -> C49_v <> [seq p.[x] | x <- make_domain C38_root 4]) &
  (forall alpha, ~ consistent_at C38_root (Poly [:: 5]) 2 [:: 1]%N [:: alpha] [:: C49_v] 1) /\
  forall (T : Type) (absorb : T -> C49_Dg -> T) (challenge : T -> F * T) (grind_verify : T -> nat -> nat -> bool * T) lambda tr,
    all (fun c => c ^+ 4 \in make_domain C38_root 4) (challenges challenge lambda (challenge (absorb tr C49_commitment)).2).1 ->
    exists tr', verify_eval C49_leaf C49_node absorb challenge grind_verify 17 (C49_params lambda) (C49_proof lambda) [:: (0%N, C49_commitment)]
      (1 : F) [:: [:: (0, 0)]]%N [:: 0] [:: [:: 1]] tr = Some (true, tr')].
Proof.
split; [ |exact: C49_not_broken|exact: C49_commits|exact: C49_not_low|split].
- split; last by case=> [|[|]] // _; apply/eqP; vm_decide.
  apply/andP; split=> //; apply/forallP => -[i hi]; rewrite unity_rootE /=.
  by do 4 (case: i hi => [|i] hi; first vm_decide).
- move=> alpha [+ _]; rewrite -pevalE.
  have : all (fun a : F => nth 0 (folded_many C38_root 2 [:: a] C49_v) 1 != peval [:: 5] (C38_root (2 ^ (2 - 1)) ^+ (1 %% 2 ^ (2 - 1)))) [seq i%:R | i <- iota 0 17].
    by vm_compute.
  by move/allP/(_ _ (C49_els alpha))/eqP.
move=> T absorb challenge gv lambda tr hin; rewrite /verify_eval.
have -> : check_step_list (C49_params lambda) by [].
have -> : degree_ok (C49_params lambda) (pf_final (C49_proof lambda)) by [].
have -> : round_challenges absorb challenge (fp_step_list (C49_params lambda)) (pf_roots (C49_proof lambda)) tr =
  Some ([:: (challenge (absorb tr C49_commitment)).1], (challenge (absorb tr C49_commitment)).2).
  by rewrite /=; case: (challenge _).
case: (challenge (absorb tr C49_commitment)) hin => alpha tr1; rewrite {1}/obnd [fst _]/= [snd _]/= => hin.
rewrite [_ && _]/= [~~ _]/= [fp_use_grinding _]/= {1}/obnd [fst _]/= [snd _]/= [~~ _]/= [fp_lambda _]/=.
by apply: C49_queries.
Qed.
End Position.

(** The run of C38 meets the hypotheses, and its Merkle proofs open the leaves of the queries. *)
Section Witness.
Let F := [fieldType of 'F_17].
Definition C49_w0 : seq F := fft (make_domain C38_root 8) [:: 2; 0; 2; 5].
Definition C49_root0 : F := odflt 0 (omap (tr_root C38_leaf C38_node) (precommit_values [:: C49_w0] 8 2)).
Definition C49_alphas : seq F := (challenges C38_challenge 2 (C38_absorb 4 C49_root0)).1.
Definition C49_w1 : seq F := folded_many C38_root 3 C49_alphas C49_w0.
Definition C49_root1 : F := odflt 0 (omap (tr_root C38_leaf C38_node) (precommit_values [:: C49_w1] 2 1)).
Definition C49_batches : omapT (seq (seq F)) :=
  [seq (e.1, [seq if f is Coef c then fft (make_domain C38_root 8) c else [::] | f <- e.2]) | e <- C38_g].
Definition C49_index (c : F) : nat := index (c ^+ ((17 - 1) %/ 2 ^ 3)) (make_domain C38_root (2 ^ 3)).
Lemma C49_executed : if C38_run 4 is Some (pr, tr') then
  [&& take 2 (pf_roots pr) == [:: C49_root0; C49_root1], C38_check C38_U pr 4 == Some (true, tr') &
      all (fun q => has (fun c => positions 3 [:: 2; 1]%N q (C49_index c)) [seq i%:R | i <- iota 1 16]) (pf_queries pr)] else false.
Proof. by vm_compute. Qed.
Lemma C49_tree_some (vs : seq (seq F)) n step : isSome (precommit_values vs n step) ->
  precommit_values vs n step = Some (odflt (Tree 0 [::]) (precommit_values vs n step)).
Proof. by case: (precommit_values _ _ _). Qed.
Example C49_witness : exists pr tr', [/\ C38_run 4 = Some (pr, tr'),
  round_commitments C38_leaf C38_node (2 + 1) [:: 2; 1]%N [:: C49_w0; C49_w1] (pf_roots pr),
  (forall k c, om_get C38_commitments k = Some c -> exists2 vs, om_get C49_batches k = Some vs & commits_to C38_leaf C38_node (2 + 1) 2 vs c),
  verify_eval C38_leaf C38_node C38_absorb C38_challenge C38_grind_verify 17 C38_params pr C38_commitments (5 : F) C38_ids C38_U C38_V 4 = Some (true, tr') &
  all (fun q => has (fun c => positions 3 [:: 2; 1]%N q (C49_index c)) [seq i%:R | i <- iota 1 16]) (pf_queries pr)].
Proof.
have := C49_executed; case: (C38_run 4) => [[pr tr']|] // /and3P[/eqP h1 /eqP h2 h3]; exists pr, tr'; split=> //.
- case: (pf_roots pr) h1 => [|a [|b l]] //=; case=> -> ->; split; last split=> //.
    split; first by vm_compute.
    exists (odflt (Tree 0 [::]) (precommit_values [:: C49_w0] 8 2)).
      by apply: C49_tree_some; vm_compute.
    by rewrite /C49_root0; have /C49_tree_some -> : isSome (precommit_values [:: C49_w0] 8 2) by vm_compute.
  split; first by vm_compute.
  exists (odflt (Tree 0 [::]) (precommit_values [:: C49_w1] 2 1)).
    by apply: C49_tree_some; vm_compute.
  by rewrite /C49_root1; have /C49_tree_some -> : isSome (precommit_values [:: C49_w1] 2 1) by vm_compute.
move=> k c; case: k => [|[|[|[|[|[|[|[|k]]]]]]]] // [<-].
  exists [seq fft (make_domain C38_root 8) c | c <- [:: [:: 1; 2; 3; 4; 5]; [:: 6; 7]]]; first by [].
  split; first by vm_compute.
  exists (C38_tree C38_fs0); last by [].
  have := C38_precommit0; rewrite /precommit_batch.
  by have -> : omapM (fun f => on_domain C38_root f (make_domain C38_root 8)) C38_fs0 =
    Some [seq fft (make_domain C38_root 8) c | c <- [:: [:: 1; 2; 3; 4; 5]; [:: 6; 7]]] by [].
exists [:: fft (make_domain C38_root 8) [:: 2; 0; 1]]; first by [].
split; first by vm_compute.
exists (C38_tree C38_fs7); last by [].
have := C38_precommit7; rewrite /precommit_batch.
by have -> : omapM (fun f => on_domain C38_root f (make_domain C38_root 8)) C38_fs7 =
  Some [:: fft (make_domain C38_root 8) [:: 2; 0; 1]] by [].
Qed.
End Witness.
Print Assumptions C49_accepted.
Print Assumptions C49_position_refuted.
