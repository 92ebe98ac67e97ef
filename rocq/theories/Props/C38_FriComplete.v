(** C38: the honest FRI proof is accepted. *)
From mathcomp Require Import all_ssreflect all_algebra.
From Verif.Model Require Import Base OrderedMap Domain FoldPolynomial MerkleTree Quotient Fri.
From Verif.Spec Require Import FriSpec.
From Verif.Proofs Require Import NatTac FieldTac PermProofs KzgProofs DomainProofs FriFold FriComplete.
Set Implicit Arguments.
Unset Strict Implicit.
Unset Printing Implicit Defensive.
Import GRing.Theory.
Local Open Scope ring_scope.

Section C38.
Variable F : fieldType.
Variables (Dg : eqType) (hash_leaf : seq F -> Dg) (hash_node : Dg -> Dg -> Dg).
Variables (T : Type) (absorb : T -> Dg -> T) (challenge : T -> F * T).
Variables (Pw : Type) (grind : T -> nat -> option (Pw * T)) (grind_verify : T -> Pw -> nat -> bool * T).
Variables (modulus : nat) (unity_root : nat -> F).
Notation dom j := (make_domain unity_root (2 ^ j)).
Notation root := (tr_root hash_leaf hash_node).
Notation prove := (proof_eval hash_leaf hash_node absorb challenge grind modulus unity_root).
Notation verify := (verify_eval hash_leaf hash_node absorb challenge grind_verify modulus).

(** The inputs of the honest prover and of the verifier: every batch of polynomials is committed with a tree and the verifier
    holds its root; the groups of polynomials, claimed values and denominators refer to existing polynomials and no
    denominator vanishes on the domain; the combination agrees at every point of the domain with the polynomial [Q], which
    has at most [b] coefficients and is committed with the tree [tree_Q]. *)
Definition honest (K b step : nat) (g : omapT (seq (fpoly F))) (trees : omapT (tree F)) (commitments : omapT Dg)
    (theta : F) (poly_ids : seq (seq (nat * nat))) (U : seq F) (V : seq (seq F)) (Q : fpoly F) (tree_Q : tree F) : Prop :=
  [/\ sorted ltn (om_keys g),
      forall k fs, om_get g k = Some fs -> exists2 t, om_get trees k = Some t &
        precommit_batch unity_root fs (dom K) step = Some t /\ om_get commitments k = Some (root t),
      [/\ size U = size V, size poly_ids = size U,
        {in flatten poly_ids, forall id, exists2 fs, om_get g id.1 = Some fs & (id.2 < size fs)%N} &
        forall x v, x \in dom K -> v \in V -> (Poly v).[x] != 0],
      below b Q (dom K) /\ precommit unity_root Q (dom K) step = Some tree_Q &
      exists values q, [/\ batch_values unity_root g (dom K) values, on_domain unity_root Q (dom K) = Some q &
        forall i, (i < 2 ^ K)%N -> nth 0 q i =
          combination theta (fun id => nth 0 (values id) i) (unity_root (2 ^ K)%N ^+ i) 0 (zip poly_ids (zip U V))]].

Lemma below_leq a b (f : fpoly F) D : (a <= b)%N -> below a f D -> below b f D.
Proof.
move=> h; case: f => [c|u] /=; first by move=> /andP[-> hc]; rewrite (leq_trans hc).
by move=> [p [hp e]]; exists p; split=> //; exact: leq_trans hp h.
Qed.
Lemma honest_leq K a b step g trees commitments theta poly_ids U V Q tree_Q : (a <= b)%N ->
  honest K a step g trees commitments theta poly_ids U V Q tree_Q -> honest K b step g trees commitments theta poly_ids U V Q tree_Q.
Proof. by move=> h [h1 h2 h3 [h4 h5] h6]; split=> //; split=> //; exact: below_leq h h4. Qed.

Section Params.
Variables (sl : seq nat) (dl lambda expand gp : nat) (ug : bool).
Notation K := (dl + expand)%N.
Notation P := (fri_params_of unity_root sl dl lambda expand ug gp).
Variables (g : omapT (seq (fpoly F))) (trees : omapT (tree F)) (commitments : omapT Dg).
Variables (theta : F) (poly_ids : seq (seq (nat * nat))) (U : seq F) (V : seq (seq F)) (Q : fpoly F) (tree_Q : tree F).

Lemma accepted tr pr tr' :
  roots_ok unity_root K -> (2%:R : F) != 0 -> check_step_list P -> (sumn sl <= dl.+1)%N -> (sumn sl <= K)%N ->
  (forall tr w tr', grind tr gp = Some (w, tr') -> grind_verify tr w gp = (true, tr')) ->
  honest K (2 ^ dl.+1) (head 0%N sl) g trees commitments theta poly_ids U V Q tree_Q ->
  prove P g Q trees tree_Q tr = Some (pr, tr') ->
  verify P pr commitments theta poly_ids U V tr = Some (true, tr').
Proof.
move=> ro two steps h1 h2 gr [gs cm [su sp res nz] [ql qt] [values [q [gv qv qe]]]] hp.
have [rts [al [tr1 [_ _ h]]]] := fri_complete absorb challenge grind grind_verify modulus ro two erefl steps h1 h2 gs cm su sp gv res nz ql qv qt qe tr.
case ew : (if ug then omap (fun r => (Some r.1, r.2)) (grind tr1 gp) else Some (None, tr1)) => [[pw tr2]|]; have := h _ ew; last by rewrite hp.
cbv zeta; case: ifP => [_|]; last by rewrite hp.
rewrite hp => -[_ [<- ->]]; apply=> hug w ep; move: ew; rewrite hug ep.
by case eg : (grind tr1 gp) => [[w' tr3]|] //= [<- <-]; apply: gr.
Qed.
Lemma produces tr :
  roots_ok unity_root K -> (2%:R : F) != 0 -> check_step_list P -> (sumn sl <= dl.+1)%N -> (sumn sl <= K)%N ->
  (2 ^ K %| modulus - 1)%N -> (1 < modulus)%N -> (forall a : F, a != 0 -> a ^+ (modulus - 1) = 1) ->
  honest K (2 ^ dl.+1) (head 0%N sl) g trees commitments theta poly_ids U V Q tree_Q ->
  exists rts al tr1, [/\ size rts = size sl, round_challenges absorb challenge sl rts tr = Some (al, tr1) &
    prove P g Q trees tree_Q tr <> None <->
    exists2 tr2, (if ug then omap snd (grind tr1 gp) else Some tr1) = Some tr2 & 0 \notin (challenges challenge lambda tr2).1].
Proof.
move=> ro two steps h1 h2 dv m1 fermat [gs cm [su sp res nz] [ql qt] [values [q [gv qv qe]]]].
have [rts [al [tr1 [e1 e2 h]]]] := fri_complete absorb challenge grind grind_verify modulus ro two erefl steps h1 h2 gs cm su sp gv res nz ql qv qt qe tr.
exists rts, al, tr1; split=> //.
have inE' c : (c ^+ ((modulus - 1) %/ 2 ^ K) \in dom K) = (c != 0).
  have prim := ro.1; have w0 : unity_root (2 ^ K)%N != 0.
    apply/eqP => e; have := prim_expr_order prim; rewrite e expr0n; have -> : (2 ^ K == 0)%N = false by apply: gtn_eqF; rewrite expn_gt0.
    by move/eqP; rewrite eq_sym oner_eq0.
  case: (boolP (c == 0)) => [/eqP->|c0] /=.
    rewrite expr0n gtn_eqF ?divn_gt0 ?expn_gt0 //; last by apply: dvdn_leq => //; rewrite subn_gt0.
    apply/negP => /mapP[i _ e]; have : unity_root (2 ^ K)%N ^+ i != 0 by apply: expf_neq0.
    by rewrite -e eqxx.
  have : (c ^+ ((modulus - 1) %/ 2 ^ K)) ^+ (2 ^ K) = 1 by rewrite -exprM divnK // fermat.
  by move/(prim_rootP prim) => [i ->]; apply/mapP; exists (i : nat); rewrite // mem_iota ltn_ord.
have allE s : all (fun c => c ^+ ((modulus - 1) %/ 2 ^ K) \in dom K) s = (0 \notin s).
  elim: s => //= c s ->; by rewrite inE' inE negb_or eq_sym.
have eg : (if ug then omap snd (grind tr1 gp) else Some tr1) =
  omap snd (if ug then omap (fun r => (Some r.1, r.2)) (grind tr1 gp) else Some (None, tr1)).
  by case: (ug) => //; case: (grind _ _).
rewrite eg; case: (if ug then _ else _) (h _ erefl) => [[pw tr2]|] /=; last by move=> ->; split=> // -[].
rewrite allE; case: ifP => [hz [pr -> _]|hz ->].
  by split=> // _; exists tr2.
by split=> // -[tr3 [<-]]; rewrite hz.
Qed.

(** Whatever the challenges are, the proof that the honest prover produces is accepted, and both transcripts are then the
    same. *)
Theorem C38_accepted tr pr tr' :
  roots_ok unity_root K -> (2%:R : F) != 0 -> check_step_list P -> (sumn sl <= dl.+1)%N -> (sumn sl <= K)%N ->
  (forall tr w tr', grind tr gp = Some (w, tr') -> grind_verify tr w gp = (true, tr')) ->
  honest K (2 ^ dl) (head 0%N sl) g trees commitments theta poly_ids U V Q tree_Q ->
  prove P g Q trees tree_Q tr = Some (pr, tr') ->
  verify P pr commitments theta poly_ids U V tr = Some (true, tr').
Proof.
move=> ro two steps h1 h2 gr hon; apply: accepted => //; apply: honest_leq hon; by rewrite leq_exp2l.
Qed.

(** The honest prover produces a proof unless the search for a proof of work fails or a query challenge is zero: [tr1] is the
    transcript after the rounds. *)
Theorem C38_produces tr :
  roots_ok unity_root K -> (2%:R : F) != 0 -> check_step_list P -> (sumn sl <= dl.+1)%N -> (sumn sl <= K)%N ->
  (2 ^ K %| modulus - 1)%N -> (1 < modulus)%N -> (forall a : F, a != 0 -> a ^+ (modulus - 1) = 1) ->
  honest K (2 ^ dl) (head 0%N sl) g trees commitments theta poly_ids U V Q tree_Q ->
  exists rts al tr1, [/\ size rts = size sl, round_challenges absorb challenge sl rts tr = Some (al, tr1) &
    prove P g Q trees tree_Q tr <> None <->
    exists2 tr2, (if ug then omap snd (grind tr1 gp) else Some tr1) = Some tr2 & 0 \notin (challenges challenge lambda tr2).1].
Proof.
move=> ro two steps h1 h2 dv m1 fermat hon; apply: produces => //; apply: honest_leq hon; by rewrite leq_exp2l.
Qed.

(** In particular a query challenge equal to zero stops the honest prover. *)
Theorem C38_zero_challenge_refuted tr :
  roots_ok unity_root K -> (2%:R : F) != 0 -> check_step_list P -> (sumn sl <= dl.+1)%N -> (sumn sl <= K)%N ->
  (2 ^ K %| modulus - 1)%N -> (1 < modulus)%N -> (forall a : F, a != 0 -> a ^+ (modulus - 1) = 1) ->
  honest K (2 ^ dl) (head 0%N sl) g trees commitments theta poly_ids U V Q tree_Q ->
  ug = false -> (0 < lambda)%N -> (forall tr, (challenge tr).1 = 0) ->
  prove P g Q trees tree_Q tr = None.
Proof.
move=> ro two steps h1 h2 dv m1 fermat hon eu hl hz.
have [rts [al [tr1 [_ _ [h _]]]]] := C38_produces tr ro two steps h1 h2 dv m1 fermat hon.
case e : (prove _ _ _ _ _ _) => [x|] //; have [] := h; first by rewrite e.
move=> tr2 _; case: (lambda) hl => //= n _; have := hz tr2; case: (challenge tr2) => c tr3 /= ->.
by case: (challenges _ _ _) => a b /=; rewrite inE eqxx.
Qed.

(** The step list may have more rounds than the degree bound allows: check_step_list accepts it, but then no proof is ever
    accepted. *)
Theorem C38_too_many_rounds_refuted tr (pr : fri_proof F Dg Pw) b tr' : (dl.+1 < sumn sl)%N ->
  verify P pr commitments theta poly_ids U V tr = Some (b, tr') -> b = false.
Proof.
move=> hs; rewrite /verify_eval; case: (check_step_list P) => //; case: (_ && _) => //.
have -> : degree_ok P (pf_final pr) = false; last by case.
apply/negbTE; rewrite /degree_ok negb_and -leqNgt leqn0 /=; case: (size (pf_final pr)) => //= n.
rewrite -ltnNge subn1 prednK ?expn_gt0 // -expnS mulSn ltn_addr //; by rewrite ltn_exp2l.
Qed.
End Params.
End C38.

(** A run over the field of 17 elements: two batches, two groups of polynomials, a step list with two entries and a proof of
    work. *)
Section Witness.
Let F := [fieldType of 'F_17].
Definition C38_root (n : nat) : F := 3 ^+ (16 %/ n).
Definition C38_leaf (s : seq F) : F := foldr (fun x y => x + 3 * y + 1) 0 s.
Definition C38_node (a b : F) : F := a * 5 + b * b + 2.
Definition C38_absorb (t : F) (d : F) : F := t * 2 + d.
Definition C38_challenge (t : F) : F * F := (t, t * 3 + 1).
Definition C38_grind (t : F) (n : nat) : option (nat * F) := Some (n, t + 1).
Definition C38_grind_verify (t : F) (w n : nat) : bool * F := (w == n, t + 1).
Definition C38_params := fri_params_of C38_root [:: 2; 1]%N 2 2 1 true 3.
Definition C38_fs0 : seq (fpoly F) := [:: Coef [:: 1; 2; 3; 4; 5]; Coef [:: 6; 7]].
Definition C38_fs7 : seq (fpoly F) := [:: Coef [:: 2; 0; 1]].
Definition C38_g : omapT (seq (fpoly F)) := [:: (0%N, C38_fs0); (7%N, C38_fs7)].
Definition C38_tree (fs : seq (fpoly F)) : tree F := odflt (Tree 0 [::]) (precommit_batch C38_root fs (make_domain C38_root 8) 2).
Definition C38_trees : omapT (tree F) := [seq (e.1, C38_tree e.2) | e <- C38_g].
Definition C38_commitments : omapT F := [seq (e.1, tr_root C38_leaf C38_node e.2) | e <- C38_trees].
Definition C38_ids : seq (seq (nat * nat)) := [:: [:: (0, 0); (0, 1)]; [:: (7, 0)]]%N.
Definition C38_U : seq F := [:: 2; 12].
Definition C38_V : seq (seq F) := [:: [:: - 3; 1]; [:: - 5; 1]].
Definition C38_Q : fpoly F := Coef [:: 2; 0; 2; 5].
Definition C38_tree_Q : tree F := C38_tree [:: C38_Q].
Definition C38_values (id : nat * nat) : seq F :=
  if id == (0, 0)%N then fft (make_domain C38_root 8) [:: 1; 2; 3; 4; 5] else
  if id == (0, 1)%N then fft (make_domain C38_root 8) [:: 6; 7] else fft (make_domain C38_root 8) [:: 2; 0; 1].

Lemma C38_roots : roots_ok C38_root 3.
Proof.
split.
  apply/andP; split=> //; apply/forallP => -[i hi]; rewrite unity_rootE /=.
  by do 8 (case: i hi => [|i] hi; first vm_decide).
by case=> [|[|[|]]] // _; apply/eqP; vm_decide.
Qed.
Lemma C38_get k fs : om_get C38_g k = Some fs -> (k, fs) = (0%N, C38_fs0) \/ (k, fs) = (7%N, C38_fs7).
Proof.
case: k => [|[|[|[|[|[|[|[|k]]]]]]]] //; by [move=> [<-]; left|move=> [<-]; right].
Qed.
Lemma C38_treeE fs : isSome (precommit_batch C38_root fs (make_domain C38_root 8) 2) ->
  precommit_batch C38_root fs (make_domain C38_root 8) 2 = Some (C38_tree fs).
Proof. by rewrite /C38_tree; case: (precommit_batch _ _ _ _). Qed.
Lemma C38_precommit0 : precommit_batch C38_root C38_fs0 (make_domain C38_root 8) 2 = Some (C38_tree C38_fs0).
Proof. by apply: C38_treeE; vm_compute. Qed.
Lemma C38_precommit7 : precommit_batch C38_root C38_fs7 (make_domain C38_root 8) 2 = Some (C38_tree C38_fs7).
Proof. by apply: C38_treeE; vm_compute. Qed.
Lemma C38_precommitQ : precommit C38_root C38_Q (make_domain C38_root 8) 2 = Some C38_tree_Q.
Proof. have -> : precommit C38_root C38_Q (make_domain C38_root 8) 2 = precommit_batch C38_root [:: C38_Q] (make_domain C38_root 8) 2 by [].
by apply: C38_treeE; vm_compute. Qed.
Lemma C38_denominators : all (fun x => all (fun v => peval v x != 0) C38_V) (make_domain C38_root 8).
Proof. by vm_compute. Qed.
Lemma C38_honest : honest C38_leaf C38_node C38_root 3 (2 ^ 2) 2 C38_g C38_trees C38_commitments (5 : F) C38_ids C38_U C38_V C38_Q C38_tree_Q.
Proof.
split; first by [].
- move=> k fs /C38_get [] [-> ->].
    exists (C38_tree C38_fs0); first by [].
    split; [exact: C38_precommit0 | by []].
  exists (C38_tree C38_fs7); first by [].
  split; [exact: C38_precommit7 | by []].
- split; [by []|by []| |].
    by move=> id; rewrite !inE => /orP[/eqP->|/orP[/eqP->|/eqP->]]; [exists C38_fs0|exists C38_fs0|exists C38_fs7].
  by move=> x v hx hv; rewrite -pevalE; have := allP C38_denominators x hx; move/allP/(_ v hv).
- split; [by []|exact: C38_precommitQ].
exists C38_values, (fft (make_domain C38_root 8) [:: 2; 0; 2; 5]); split; [|by []|].
  move=> k i fs f /C38_get [] [-> ->].
    case: i => [|[|]] // [<-]; apply: eq_map => x; exact: pevalE.
  case: i => [|] // [<-]; apply: eq_map => x; exact: pevalE.
move=> i hi; rewrite /C38_ids /C38_U /C38_V [zip _ _]/= /combination [size _]/= !big_ord_recl !big_ord0 -!pevalE.
by case: i hi => [|[|[|[|[|[|[|[|i]]]]]]]] // _; apply/eqP; vm_decide.
Qed.
(** The theorem applies to it, and the run itself *)
Example C38_witness : [/\ roots_ok C38_root (2 + 1), (2%:R : F) != 0, check_step_list C38_params,
    (forall tr w tr', C38_grind tr 3 = Some (w, tr') -> C38_grind_verify tr w 3 = (true, tr')) &
    honest C38_leaf C38_node C38_root (2 + 1) (2 ^ 2) (head 0%N [:: 2; 1]%N) C38_g C38_trees C38_commitments (5 : F) C38_ids C38_U C38_V C38_Q C38_tree_Q].
Proof.
split; [exact: C38_roots|by []|by []| |exact: C38_honest].
by move=> tr w tr' [<- <-]; rewrite /C38_grind_verify eqxx.
Qed.
Definition C38_run (tr : F) := proof_eval C38_leaf C38_node C38_absorb C38_challenge C38_grind 17 C38_root C38_params C38_g C38_Q C38_trees C38_tree_Q tr.
Definition C38_check (U : seq F) (pr : fri_proof F F nat) (tr : F) := verify_eval C38_leaf C38_node C38_absorb C38_challenge C38_grind_verify 17 C38_params pr
  C38_commitments (5 : F) C38_ids U C38_V tr.
Lemma C38_executed : if C38_run 4 is Some (pr, tr') then
  [&& size (pf_queries pr) == 2%N, C38_check C38_U pr 4 == Some (true, tr') & omap fst (C38_check [:: 3; 12] pr 4) == Some false] else false.
Proof. by vm_compute. Qed.
(** A transcript for which the prover stops, and a step list with too many rounds *)
Lemma C38_stopped : proof_eval C38_leaf C38_node C38_absorb (fun t => (0, t)) C38_grind 17 C38_root
  (fri_params_of C38_root [:: 2; 1]%N 2 2 1 false 3) C38_g C38_Q C38_trees C38_tree_Q 4 = None.
Proof. by vm_compute. Qed.
Lemma C38_too_many : let P := fri_params_of C38_root [:: 2; 1]%N 1 2 2 true 3 in
  [/\ check_step_list P, (sumn [:: 2; 1] <= 1 + 2)%N & (2 < sumn [:: 2; 1])%N].
Proof. by []. Qed.

End Witness.

Print Assumptions C38_accepted.
Print Assumptions C38_produces.
Print Assumptions C38_zero_challenge_refuted.
Print Assumptions C38_too_many_rounds_refuted.
