(** C39: the degree check of the final polynomial of FRI. *)
From mathcomp Require Import all_ssreflect all_algebra.
From Verif.Model Require Import Base OrderedMap Domain FoldPolynomial MerkleTree Quotient Fri.
From Verif.Spec Require Import FriSpec.
From Verif.Proofs Require Import NatTac FieldTac PermProofs KzgProofs PackingProofs DomainProofs FriFold FriRounds FriComplete.
From Verif.Props Require Import C38_FriComplete.
Set Implicit Arguments.
Unset Strict Implicit.
Unset Printing Implicit Defensive.
Import GRing.Theory.
Local Open Scope ring_scope.

Section C39.
Variable F : fieldType.
Variables (Dg : eqType) (hash_leaf : seq F -> Dg) (hash_node : Dg -> Dg -> Dg).
Variables (T : Type) (absorb : T -> Dg -> T) (challenge : T -> F * T).
Variables (Pw : Type) (grind : T -> nat -> option (Pw * T)) (grind_verify : T -> Pw -> nat -> bool * T).
Variables (modulus : nat) (unity_root : nat -> F).
Notation dom j := (make_domain unity_root (2 ^ j)).
Notation root := (tr_root hash_leaf hash_node).
Notation prove := (proof_eval hash_leaf hash_node absorb challenge grind modulus unity_root).
Notation verify := (verify_eval hash_leaf hash_node absorb challenge grind_verify modulus).

(** What acceptance guarantees: the final polynomial has at least one and at most 2 * (max_degree + 1) / 2^r coefficients. *)
Theorem C39_bound (P : fri_params F) (pr : fri_proof F Dg Pw) commitments theta poly_ids U V tr tr' :
  verify P pr commitments theta poly_ids U V tr = Some (true, tr') ->
  (0 < size (pf_final pr))%N /\ (size (pf_final pr) * 2 ^ fp_r P <= 2 * (fp_max_degree P).+1)%N.
Proof.
rewrite /verify_eval; case: (check_step_list P) => //; case: (_ && _) => //.
by case e : (degree_ok P (pf_final pr)) => // _; move: e; rewrite /degree_ok => /andP[].
Qed.

(** Conversely a final polynomial beyond this bound is rejected without looking at the rest of the proof. *)
Theorem C39_rejects (P : fri_params F) (pr : fri_proof F Dg Pw) commitments theta poly_ids U V tr :
  check_step_list P -> size U = size V -> size poly_ids = size U ->
  (size (pf_final pr) == 0)%N || (2 * (fp_max_degree P).+1 < size (pf_final pr) * 2 ^ fp_r P)%N ->
  verify P pr commitments theta poly_ids U V tr = Some (false, tr).
Proof.
move=> hs hU hp h; rewrite /verify_eval hs hp hU !eqxx /=.
suff -> : degree_ok P (pf_final pr) = false by [].
by apply/negbTE; rewrite /degree_ok negb_and -leqNgt leqn0 -ltnNge.
Qed.

Section Params.
Variables (sl : seq nat) (dl lambda expand gp : nat) (ug : bool).
Notation K := (dl + expand)%N.
Notation P := (fri_params_of unity_root sl dl lambda expand ug gp).
Variables (g : omapT (seq (fpoly F))) (trees : omapT (tree F)) (commitments : omapT Dg).
Variables (theta : F) (poly_ids : seq (seq (nat * nat))) (U : seq F) (V : seq (seq F)).

(** The bound is twice too loose: FRI accepts every polynomial with up to 2 * (max_degree + 1) coefficients. *)
Theorem C39_twice_refuted (Q : fpoly F) tree_Q tr pr tr' :
  roots_ok unity_root K -> (2%:R : F) != 0 -> check_step_list P -> (sumn sl <= dl.+1)%N -> (sumn sl <= K)%N ->
  (forall tr w tr', grind tr gp = Some (w, tr') -> grind_verify tr w gp = (true, tr')) ->
  honest hash_leaf hash_node unity_root K (2 * (fp_max_degree P).+1) (head 0%N sl) g trees commitments theta poly_ids U V Q tree_Q ->
  prove P g Q trees tree_Q tr = Some (pr, tr') ->
  verify P pr commitments theta poly_ids U V tr = Some (true, tr').
Proof.
move=> ro two hs h1 h2 gr hon; apply: accepted => //.
by move: hon; rewrite /= subn1 prednK ?expn_gt0 // -expnS.
Qed.

(** The inputs of a verifier of which only the commitments are honest: the claimed values [U] are arbitrary. *)
Definition honest_commitments (step : nat) (values : nat * nat -> seq F) : Prop :=
  [/\ sorted ltn (om_keys g),
      forall k fs, om_get g k = Some fs -> exists2 t, om_get trees k = Some t &
        precommit_batch unity_root fs (dom K) step = Some t /\ om_get commitments k = Some (root t),
      batch_values unity_root g (dom K) values,
      size U = size V /\ size poly_ids = size U &
      {in flatten poly_ids, forall id, exists2 fs, om_get g id.1 = Some fs & (id.2 < size fs)%N} /\
      forall x v, x \in dom K -> v \in V -> (Poly v).[x] != 0].

(** When the domain is only twice as large as the degree bound (expand_factor = 1), acceptance says nothing: whatever values
    are claimed there is a combined polynomial for which the prover's proof is accepted. *)
Theorem C39_vacuous_refuted values : expand = 1%N ->
  roots_ok unity_root K -> (2%:R : F) != 0 -> check_step_list P -> (sumn sl <= K)%N ->
  (forall tr w tr', grind tr gp = Some (w, tr') -> grind_verify tr w gp = (true, tr')) ->
  honest_commitments (head 0%N sl) values ->
  exists Q tree_Q, precommit unity_root Q (dom K) (head 0%N sl) = Some tree_Q /\
    forall tr pr tr', prove P g Q trees tree_Q tr = Some (pr, tr') ->
    verify P pr commitments theta poly_ids U V tr = Some (true, tr').
Proof.
move=> e1 ro two hs h2 gr [gs cm gv [su sp] [res nz]].
pose q := [seq combination theta (fun id => nth 0 (values id) i) (unity_root (2 ^ K)%N ^+ i) 0 (zip poly_ids (zip U V)) | i <- iota 0 (2 ^ K)].
have sq : size q = (2 ^ K)%N by rewrite size_map size_iota.
have h1 : (sumn sl <= dl.+1)%N by move: h2; rewrite e1 addn1.
have hv : vals unity_root (Dfs q) K q by [].
have [m em] : exists m, head 0%N sl = m.+1.
  by move: hs; rewrite /check_step_list /=; case: (sl) => [|[|n] s] //=; exists n.
have [k ek] : exists k, K = k.+1 by exists dl; rewrite e1 addn1.
have hm : (m <= k)%N by rewrite -ltnS -ek -em (leq_trans _ h2) //; case: (sl) => //= a s; rewrite leq_addr.
have qt : precommit unity_root (Dfs q) (dom K) (head 0%N sl) = Some (leaf_tree [:: q] k m).
  by move: hv; rewrite em ek => hv; apply: precommitE.
exists (Dfs q), (leaf_tree [:: q] k m); split=> // tr pr tr'; apply: accepted => //; split=> //.
- split=> //=; exists (Poly (inverse_fft (dom K) q)).
  have ud := uniq_dom ro (leqnn _).
  split; first by apply: leq_trans (size_Poly _) _; rewrite size_inverse_fft size_dom e1 addn1.
  apply: (@eq_from_nth _ 0) => [|i]; rewrite ?size_map ?size_iota // => hi.
  by rewrite [RHS](nth_map 0) ?size_dom // inverse_fft_at ?size_dom.
exists values, q; split=> // [|i hi]; first by rewrite /on_domain sq size_dom eqxx.
by rewrite (nth_map 0%N) ?size_iota // nth_iota.
Qed.

(** The final polynomial is not part of the transcript: the prover can choose it after the queries are known. When there are
    not more queries than coefficients allowed in it, whatever values are claimed and whatever the challenges are, there is
    an accepted proof (unless a query challenge is zero, which stops the verifier). [pw] is an accepted proof of work for the
    transcript [tr1] after the rounds. *)
Theorem C39_late_final_refuted values tr :
  roots_ok unity_root K -> (2%:R : F) != 0 -> check_step_list P -> (sumn sl <= dl.+1)%N -> (sumn sl <= K)%N ->
  (0 < lambda)%N -> (lambda * 2 ^ sumn sl <= 2 * 2 ^ dl)%N -> honest_commitments (head 0%N sl) values ->
  exists rts al tr1, [/\ size rts = size sl, round_challenges absorb challenge sl rts tr = Some (al, tr1) &
  forall pw tr2, (if ug then exists2 w, pw = Some w & grind_verify tr1 w gp = (true, tr2) else tr2 = tr1) ->
    all (fun c => c ^+ ((modulus - 1) %/ 2 ^ K) \in dom K) (challenges challenge lambda tr2).1 ->
    exists pr, verify P pr commitments theta poly_ids U V tr = Some (true, (challenges challenge lambda tr2).2)].
Proof.
move=> ro two hs h1 h2 hl0 hl [gs cm gv [su sp] [res nz]].
pose q := [seq combination theta (fun id => nth 0 (values id) i) (unity_root (2 ^ K)%N ^+ i) 0 (zip poly_ids (zip U V)) | i <- iota 0 (2 ^ K)].
have sq : size q = (2 ^ K)%N by rewrite size_map size_iota.
have hl' : (lambda <= 2 ^ (dl.+1 - sumn sl))%N.
  by rewrite -(@leq_pmul2r (2 ^ sumn sl)) ?expn_gt0 // -expnD subnK // expnS.
have qE i : (i < 2 ^ K)%N -> nth 0 q i = combination theta (fun id => nth 0 (values id) i) (unity_root (2 ^ K)%N ^+ i) 0 (zip poly_ids (zip U V)).
  by move=> hi; rewrite (nth_map 0%N) ?size_iota // nth_iota.
have [rts [al [tr1 [e1 e2 h]]]] := fri_late absorb challenge grind_verify modulus ro two erefl hs h1 h2 gs cm su sp gv res nz tr sq hl0 hl' qE.
exists rts, al, tr1; split=> // pw tr2 hw ha; have [pr [_ _ hp]] := h pw tr2 hw ha; by exists pr.
Qed.
End Params.
End C39.

(** In the run of C38 (max_degree = 3, expand_factor = 1) a wrong claimed value is accepted: the combined polynomial then
    has eight coefficients. *)
Section Witness.
Let F := [fieldType of 'F_17].
Definition C39_U : seq F := [:: 3; 12].
Definition C39_Q : fpoly F := Coef [:: 5; 1; 8; 7; 12; 4; 7; 8].
Definition C39_run (tr : F) := proof_eval C38_leaf C38_node C38_absorb C38_challenge C38_grind 17 C38_root C38_params C38_g C39_Q C38_trees
  (C38_tree [:: C39_Q]) tr.
Lemma C39_executed : if C39_run 4 is Some (pr, tr') then
  [&& size (pf_queries pr) == 2%N, C38_check C39_U pr 4 == Some (true, tr') & omap fst (C38_check C38_U pr 4) == Some false] else false.
Proof. by vm_compute. Qed.
Example C39_witness : [/\ roots_ok C38_root (2 + 1), check_step_list C38_params, (sumn [:: 2; 1] <= 2 + 1)%N,
  (1 * 2 ^ sumn [:: 2; 1] <= 2 * 2 ^ 2)%N &
  honest_commitments C38_leaf C38_node C38_root 2 1 C38_g C38_trees C38_commitments C38_ids C39_U C38_V 2 C38_values].
Proof.
split; [exact: C38_roots|by []|by []|by []|].
have [h1 h2 [h3 h4 h5 h6] _ _] := C38_honest; split=> //.

move=> k i fs f /C38_get [] [-> ->].
  by case: i => [|[|]] // [<-]; apply: eq_map => x; exact: pevalE.
by case: i => [|] // [<-]; apply: eq_map => x; exact: pevalE.
Qed.
End Witness.

Print Assumptions C39_bound.
Print Assumptions C39_rejects.
Print Assumptions C39_twice_refuted.
Print Assumptions C39_vacuous_refuted.
Print Assumptions C39_late_final_refuted.
