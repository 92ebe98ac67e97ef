(** C40: the list polynomial commitment: prover and verifier combine the same quotient, honest proofs are accepted, wrong values
    are noticed if they are fixed before theta, and what this leaves open. *)
From mathcomp Require Import all_ssreflect all_algebra.
From Verif.Model Require Import Base OrderedMap PlonkTable Domain FoldPolynomial MerkleTree Quotient PolysEvaluator Fri Lpc.
From Verif.Spec Require Import FriSpec LpcSpec.
From Verif.Proofs Require Import NatTac FieldTac PermProofs KzgProofs PackingProofs DomainProofs QuotientProofs EvaluatorProofs PlaceholderRun
  PlaceholderState FriLayout FriFold FriRounds FriComplete LpcProofs LpcSound LpcForge LpcHistory.
From Verif.Props Require Import C38_FriComplete.
Set Implicit Arguments.
Unset Strict Implicit.
Unset Printing Implicit Defensive.
Import GRing.Theory.
Local Open Scope ring_scope.

Section C40.
Variable F : fieldType.
Variables (Dg : eqType) (hash_leaf : seq F -> Dg) (hash_node : Dg -> Dg -> Dg).
Variables (T : Type) (absorb : T -> Dg -> T) (challenge : T -> F * T).
Variables (Pw : Type) (grind : T -> nat -> option (Pw * T)) (grind_verify : T -> Pw -> nat -> bool * T).
Variables (modulus : nat) (unity_root : nat -> F).
Notation dom j := (make_domain unity_root (2 ^ j)).
Notation root := (tr_root hash_leaf hash_node).
Notation lpc := (lpc_scheme F).
Notation polys s := (ev_polys (ls_ev s)).
Notation points s := (ev_points (ls_ev s)).

(** What the verifier gets: the roots returned by the commit calls *)
Definition commitments_of (s : lpc) : omapT Dg := [seq (e.1, root e.2) | e <- ls_trees s].
(** Every batch with polynomials has been committed to. *)
Definition all_committed (s : lpc) : Prop := {subset om_keys (polys s) <= om_keys (ls_trees s)}.
(** The polynomials have at most [d] coefficients. *)
Definition small (d : nat) (s : lpc) : Prop := forall id p, om_get2 (polys s) id = Some p -> (size p <= d)%N.
(** [x] is neither a point where a polynomial is opened, nor the point of the fixed batches. *)
Definition not_opened (s : lpc) (x : F) : Prop :=
  (forall id xs, om_get2 (points s) id = Some xs -> x \notin xs) /\ (has (fun e : nat * bool => e.2) (ls_fixed s) -> x <> ls_etha s).
(** The values of the polynomials at their points *)
Definition true_values (s : lpc) (z : eval_storage F) : Prop := sorted ltn (om_keys z) /\
  forall k, om_get z k = omap (fun ps => [seq [seq e.1.[x] | x <- e.2] | e : {poly F} * seq F <- zip ps (odflt [::] (om_get (points s) k))]) (om_get (polys s) k).

Lemma odflt_om (A : Type) (m : omapT (seq A)) k d i : nth d (odflt [::] (om_get m k)) i = entry d m (k, i). Proof. by []. Qed.

Section State.
Variables (R : poly_type) (P : fri_params F) (D0 : seq F) (step : nat).
Hypothesis hD : vget (fp_D P) 0 = Some D0.
Hypothesis hstep : vget (fp_step_list P) 0 = Some step.
Variables (s v : lpc).
Hypothesis I : inv unity_root R D0 step s v.
Hypothesis hall : all_committed s.
Hypothesis hfix : fixed_values s.
Hypothesis hlock : fixed_locked s.

Lemma ready : [/\ om_keys (points s) = om_keys (polys s), om_keys (ls_trees s) = om_keys (polys s),
  forall k, size (odflt [::] (om_get (points s) k)) = nP (polys s) k,
  forall k ps, om_get (polys s) k = Some ps -> exists fs t, [/\ stored_batch unity_root R k ps = Some fs,
    precommit_batch unity_root fs D0 step = Some t & om_get (ls_trees s) k = Some t] &
  forall k, (k \in om_keys (polys s)) = locked (ls_ev s) k].
Proof.
case: I => h2 h3 h4 h5 h6 h8 h9 h10 h11 h12.
have hk k : (k \in om_keys (polys s)) = locked (ls_ev s) k.
  by apply/idP/idP => [/hall|/h10[]//]; rewrite h9.
split=> //.
- by apply: keys_eq => // k; rewrite h8 hk.
- by apply: keys_eq => // k; rewrite h9 hk.
- move=> k; case: (boolP (locked (ls_ev s) k)) => hl; first by have [_ ->] := h10 _ hl.
  by rewrite /nP om_get_noneP ?h8 // om_get_noneP ?hk.
move=> k ps ek; have hl : locked (ls_ev s) k by rewrite -hk -om_get_mem ek.
by have [_ _] := h10 _ hl; rewrite ek.
Qed.

Definition zof : eval_storage F := [seq (k, zval (polys s) (points s) k) | k <- om_keys (polys s)].
Lemma om_get_keys (A : Type) (f : nat -> A) ks k : om_get [seq (k, f k) | k <- ks] k = if k \in ks then Some (f k) else None.
Proof. by elim: ks => [|k1 ks ih] //=; rewrite inE eq_sym; case: eqP => [->|]. Qed.
Lemma zof_keys : om_keys zof = om_keys (polys s).
Proof. by rewrite /zof /om_keys -map_comp map_id. Qed.
Lemma eval_zof : eval_polys (ls_ev s) = Some (Evaluator zof (polys s) (ev_locked (ls_ev s)) (points s)).
Proof.
have [r1 r2 r3 r4 r5] := ready; case: I => h2 h3 h4 h5 h6 h8 h9 h10 h11 h12.
rewrite /eval_polys h11.
have [|z' -> [zg zs]] /= := @ofold_set _ [eqType of nat * seq {poly F}] fst (polys s) (fun z (e : nat * seq {poly F}) =>
      olet points <- om_get (points s) e.1; olet r <- eval_batch e.2 points; Some (om_set z e.1 r)) (zval (polys s) (points s)) [::].
  case=> k ps hk z /=.
  have ek : om_get (polys s) k = Some ps by apply: (om_get_in h2 hk).
  have [pts ep] : exists pts, om_get (points s) k = Some pts by apply: om_get_someP; rewrite r1 -om_get_mem ek.
  have sz : size pts = size ps by have := r3 k; rewrite ep /nP ek.
  rewrite ep /= /eval_batch sz eqxx /=.
  have -> : omapM (fun i => olet p <- vget ps i; olet ps0 <- vget pts i; Some [seq p.[x] | x : F <- ps0]) (iota 0 (size ps)) = Some (zval (polys s) (points s) k).
    rewrite /zval /nP ek /=; apply: omapM_some => i; rewrite mem_iota /= => hi.
    by rewrite (vget_nth 0 hi) /= (vget_nth [::]) ?sz //= /Pq /Sq /= ek ep.
  by [].
congr (Some (Evaluator _ _ _ _)); apply: om_ext; first exact: zs.
  by rewrite zof_keys.
by move=> k; rewrite zg om_get_keys.
Qed.
Notation ev := (Evaluator zof (polys s) (ev_locked (ls_ev s)) (points s)).
Notation ids := (places zof).
Lemma idsE : ids = idxs (polys s).
Proof.
rewrite /places zof_keys /idxs; congr flatten; apply/eq_in_map => k hk; by rewrite om_get_keys hk /= size_zval.
Qed.
Lemma ids_polys : {in ids, forall id, om_get2 (polys s) id = Some (entry 0 (polys s) id)}.
Proof. by move=> id; rewrite idsE => /idx_poly ->. Qed.
Lemma ids_points : {in ids, forall id, om_get2 (points s) id = Some (entry [::] (points s) id)}.
Proof. have [r1 r2 r3 _ _] := ready; move=> id; rewrite idsE => h; exact: idx_points r1 r3 _ h. Qed.
Lemma ids_z : {in ids, forall id, om_get2 zof id = Some [seq (entry 0 (polys s) id).[x] | x <- entry [::] (points s) id]}.
Proof.
move=> [k i]; rewrite idsE idxsP => /andP[hk hi]; by rewrite /om_get2 om_get_keys hk /= zval_at.
Qed.
Lemma ids_fixed : {in ids, forall id, is_fixed s id.1 ->
  vget (odflt [::] (om_get (ls_fixed_values s) id.1)) id.2 = Some (entry 0 (polys s) id).[ls_etha s]}.
Proof.
move=> [k i]; rewrite idsE idxsP => /andP[hk hi] hf; rewrite (hfix hf) /= (vget_nth 0); last by rewrite size_map.
by rewrite (nth_map 0).
Qed.
Lemma keys_uniq : uniq (om_keys zof).
Proof. rewrite zof_keys; apply: sorted_uniq (i_sp I); [exact: ltn_trans|exact: ltnn]. Qed.

Lemma groups_some theta : exists g, verifier_groups s zof theta = Some g.
Proof.
have hr c : readable (points s) zof c ids.
  apply/allP => id hid; rewrite (ids_points hid) (ids_z hid); apply/implyP => hc; by rewrite size_map index_mem.
rewrite /verifier_groups z_indicesE obnd_some.
have [r ->] : exists r, ofold (fun (st : seq (seq (nat * nat)) * seq F * F) point =>
      olet g <- point_group (points s) zof theta point ids st.2;
      Some (rcons st.1.1 g.1.1, rcons st.1.2 g.1.2, g.2)) ([::], [::], 1) (get_unique_points (points s)) = Some r.
  elim: (get_unique_points _) ([::], [::], 1) => [|c cs ih] st; first by exists st.
  by rewrite [ofold _ _ _]/= point_group_all hr; apply: ih.
rewrite obnd_some; case: ifP => _; last by eexists.
have [g ->] : exists g, fixed_group s theta ids r.2 = Some g; last by eexists.
rewrite /fixed_group; have: {subset ids <= ids} by [].
elim: {1 3}ids ([::], 0, r.2) => [|id l ih] st hsub /=; first by exists st.
have hl : {subset l <= ids} by move=> i hi; apply: hsub; rewrite inE hi orbT.
case: ifP => hf /=; last exact: ih.
by rewrite (ids_fixed (hsub _ (mem_head _ _)) hf) /=; apply: ih.
Qed.
Lemma unique_not_opened x : not_opened s x -> x \notin get_unique_points (points s).
Proof.
case=> h _; apply/negP; rewrite unique_points_mem => /flattenP[xs /flattenP[b /mapP[e he ->] hxs] hx].
have eg : om_get (points s) e.1 = Some e.2 by apply: om_get_in (i_st I) he.
have := h (e.1, index xs e.2) xs; rewrite /om_get2 /= eg /= (vget_nth [::]) ?index_mem // nth_index // => /(_ erefl).
by rewrite hx.
Qed.
Lemma fixed_has k : is_fixed s k -> has (fun e : nat * bool => e.2) (ls_fixed s).
Proof. by rewrite /is_fixed; elim: (ls_fixed s) => [|[k1 b] m ih] //=; case: eqP => _ /=; [move=> ->|move/ih ->; rewrite orbT]. Qed.
Lemma claims_ids z : {subset [seq cl_id o | o <- claims s z] <= places z}.
Proof.
move=> id; rewrite /claims map_cat mem_cat => /orP[].
  elim: (get_unique_points _) => [|c cs ih] //=; rewrite map_cat mem_cat map_claim_id mem_filter => /orP[/andP[_ ->]|/ih] //.
by rewrite map_claim_id mem_filter => /andP[_ ->].
Qed.

(** The quotient of the prover and the combination of the verifier *)
Lemma recombined d theta : (0 < d)%N -> small d s -> exists Q ps U V,
  [/\ combined_quotient s ev theta = Some Q, (size Q <= d)%N, verifier_groups s zof theta = Some (ps, U, V) &
    forall x, not_opened s x -> Q.[x] = combination theta (fun id => (entry 0 (polys s) id).[x]) x 0 (zip ps (zip U V))].
Proof.
move=> hd hsm; have [[[ps U] V] hg] := groups_some theta; have [g1 g2 g3 g4 g5] := verifier_groups_inv hg.
have hs : {in ids, forall id, (size (entry 0%R (polys s) id) <= d)%N} by move=> id /ids_polys; apply: hsm.
have [Q hQ [sQ eQ]] := combined_quotientE (s := s) (ev := ev) hd keys_uniq hs ids_polys ids_points ids_z ids_fixed theta.
exists Q, ps, U, V; split=> // x hx; rewrite g4; apply: eQ => //; first exact: unique_not_opened.
by case/hasP=> k _ /fixed_has hf; apply/eqP; apply: hx.2.
Qed.
End State.

Lemma eq_combination theta (w w' : nat * nat -> F) x gs : w =1 w' -> forall off, combination theta w x off gs = combination theta w' x off gs.
Proof.
by move=> h; elim: gs => [|[ids [u V]] gs ih] off //=; rewrite ih; congr ((_ - _) / _ + _); apply: eq_bigr => i _; rewrite h.
Qed.
(** The batches as FRI gets them *)
Lemma stored_batch_inv R k (ps : seq {poly F}) fs : stored_batch unity_root R k ps = Some fs ->
  size fs = size ps /\ forall i f, vget fs i = Some f -> Lpc.stored unity_root R (nth 0 ps i) (k, i) = Some f.
Proof.
rewrite /stored_batch => h; have hs := omapM_size h; rewrite size_zip size_iota minnn in hs; split=> // i f hi.
have li : (i < size ps)%N by rewrite -hs; apply: vget_some hi.
have := @KzgProofs.omapM_nth _ _ _ _ _ i (0, 0%N) f h; rewrite size_zip size_iota minnn => /(_ li).
by rewrite nth_zip ?size_iota // nth_iota // add0n (nth_vget f hi).
Qed.
Lemma stored_values R (p : {poly F}) id f D : Lpc.stored unity_root R p id = Some f -> values_of unity_root f D [seq p.[x] | x <- D].
Proof.
case: R => [|ls] /=; first by case=> <- /=; rewrite coefficientsK.
case: ifP => // hp [<-] /=; rewrite /fft size_map /make_domain size_map size_iota.
exists (ls id), p; split=> //; by apply/eq_in_map => x _; rewrite pevalE coefficientsK.
Qed.

Section Params.
Variables (sl : seq nat) (dl lambda expand gp : nat) (ug : bool).
Notation K := (dl + expand)%N.
Notation P := (fri_params_of unity_root sl dl lambda expand ug gp).
Variable R : poly_type.
Notation prove := (lpc_proof_eval hash_leaf hash_node absorb challenge grind modulus unity_root R P).
Notation verify := (lpc_verify_eval hash_leaf hash_node absorb challenge grind_verify modulus P).
Notation prover_run := (LpcSpec.prover_run hash_leaf hash_node challenge unity_root R P).
Notation both_run := (LpcSpec.both_run hash_leaf hash_node challenge unity_root R P).
Notation fri_prove := (proof_eval hash_leaf hash_node absorb challenge grind modulus unity_root P).

Lemma steps_ok : check_step_list P -> [/\ vget (fp_D P) 0 = Some (dom K), vget (fp_step_list P) 0 = Some (head 0%N sl) &
  exists m k, head 0%N sl = m.+1 /\ sumn sl = (m.+1 + k)%N].
Proof.
rewrite /check_step_list /=; case: sl => [|a l] //= /and4P[/andP[ha _] _ _ _].
have : (0 < a + sumn l)%N by rewrite addn_gt0 ha.
rewrite /calculate_domain_set; case E: (a + sumn l)%N => [|n] // _; split=> //=; first by rewrite subn0.
by exists a.-1, (sumn l); rewrite prednK.
Qed.

Lemma honest_state s v theta : roots_ok unity_root K -> check_step_list P -> (sumn sl <= K)%N ->
  inv unity_root R (dom K) (head 0%N sl) s v -> all_committed s -> fixed_values s ->
  small (2 ^ dl) s -> (forall x, x \in dom K -> not_opened s x) ->
  exists Q fQ tree_Q g ps U V,
  [/\ combined_quotient s (Evaluator (zof s) (polys s) (ev_locked (ls_ev s)) (points s)) theta = Some Q,
     quotient_object R (dom K) Q = Some fQ,
     omapM (fun e : nat * seq {poly F} => olet fs <- stored_batch unity_root R e.1 e.2; Some (e.1, fs)) (polys s) = Some g,
     verifier_groups s (zof s) theta = Some (ps, U, V) &
     honest hash_leaf hash_node unity_root K (2 ^ dl) (head 0%N sl) g (ls_trees s) (commitments_of s) theta ps U V fQ tree_Q].
Proof.
move=> ro hsl hK I hall hfix hsm hno.
have [r1 r2 r3 r4 r5] := ready I hall.
have [|Q [ps [U [V [hQ sQ hg eQ]]]]] := recombined I hall hfix theta _ hsm; first by rewrite expn_gt0.
have [g1 g2 g3 g4 g5] := verifier_groups_inv hg.
pose gf k ps := odflt [::] (stored_batch unity_root R k ps).
pose g : omapT (seq (fpoly F)) := [seq (e.1, gf e.1 e.2) | e <- polys s].
have hgg : omapM (fun e : nat * seq {poly F} => olet fs <- stored_batch unity_root R e.1 e.2; Some (e.1, fs)) (polys s) = Some g.
  apply: omapM_some => -[k b] hin /=; have /r4 [fs [t [e1 _ _]]] := om_get_in (i_sp I) hin.
  by rewrite /gf e1.
have gE k fs : om_get g k = Some fs -> exists2 b, om_get (polys s) k = Some b & stored_batch unity_root R k b = Some fs.
  rewrite om_get_map; case E: om_get => [b|] //= [<-]; exists b => //; have [fs' [t [e1 _ _]]] := r4 _ _ E; by rewrite /gf e1.
pose c := coefficients Q.
have sc : (0 < size c <= 2 ^ dl)%N by rewrite size_coefficients leq_max geq_max expn_gt0 sQ.
have sD : size (dom K) = (2 ^ K)%N by rewrite /make_domain size_map size_iota.
have sc2 : (size c <= 2 ^ K)%N by apply: leq_trans (andP sc).2 _; rewrite leq_exp2l // leq_addr.
pose fQ := if R is PCoef then Coef c else Dfs (fft (dom K) c).
have hfQ : quotient_object R (dom K) Q = Some fQ by rewrite /quotient_object /fQ; case: R => //= _; rewrite sD -/c sc2.
have qv : on_domain unity_root fQ (dom K) = Some (fft (dom K) c).
  by rewrite /fQ; case: R => [|_] /=; rewrite ?sD ?sc2 // size_map sD eqxx.
have [_ _ [m [n [hm hn]]]] := steps_ok hsl.
have [k ek] : exists k, K = k.+1 by exists K.-1; rewrite prednK //; move: hK hn; clear; slia.
have [tQ hT] : exists t, precommit unity_root fQ (dom K) (head 0%N sl) = Some t.
  rewrite /precommit qv obnd_some sD hm ek precommit_valuesE; first by eexists.
    by rewrite /= -ek size_map sD eqxx.
  by move: hK hn ek; clear; slia.
exists Q, fQ, tQ, g, ps, U, V; split=> //; split.
- by rewrite /om_keys -map_comp; apply: (i_sp I).
- move=> k' fs /gE [b eb es]; have [fs' [t [e1 e2 e3]]] := r4 _ _ eb; exists t => //; move: e1; rewrite es => -[e1]; rewrite e1; split=> //.
  by rewrite /commitments_of (om_get_map (fun _ => root)) e3.
- split=> //.
    move=> [k' i]; rewrite g3 => /claims_ids; rewrite idsE idxsP => /andP[hk hi] /=.
    have [b eb] := om_get_someP hk; have [fs [t [e1 _ _]]] := r4 _ _ eb; exists fs; first by rewrite (om_get_map gf) eb /= /gf e1.
    by have [-> _] := stored_batch_inv e1; move: hi; rewrite /nP eb.
  move=> x w hx; rewrite g5 mem_cat => /orP[/mapP[c' hc ->]|].
    rewrite line_horner subr_eq0; apply: contraTneq hc => <-; exact: (unique_not_opened I (hno _ hx)).
  case: ifP => // hf; rewrite inE => /eqP ->; rewrite line_horner subr_eq0; apply/eqP; exact: (hno _ hx).2 hf.
- split=> //; rewrite /fQ; case: R => //= _; exists Q; split=> //.
  by apply/eq_in_map => x _; rewrite pevalE coefficientsK.
exists (fun id => [seq (entry 0 (polys s) id).[x] | x <- dom K]), (fft (dom K) c); split=> //.
  move=> k' i fs f /gE [b eb es] hf; have [ss hst] := stored_batch_inv es; have := stored_values (dom K) (hst _ _ hf).
  by rewrite /entry eb.
move=> i hi; have hx : unity_root (2 ^ K)%N ^+ i \in dom K by apply/mapP; exists i; rewrite // mem_iota.
have nx : nth 0 (dom K) i = unity_root (2 ^ K)%N ^+ i by rewrite (nth_map 0%N) ?size_iota // nth_iota.
rewrite (nth_map 0) ?sD // nx pevalE coefficientsK eQ; last exact: hno.
by apply: eq_combination => id; rewrite (nth_map 0) ?sD // nx.
Qed.

Lemma groups_same s v z theta D0 step : inv unity_root R D0 step s v -> verifier_groups v z theta = verifier_groups s z theta.
Proof.
case=> _ _ _ e1 _ _ _ _ _ [_ e2 e3 e4]; rewrite /verifier_groups /fixed_group /is_fixed e1 e2 e3 e4; by [].
Qed.
Lemma zof_true s v D0 step : inv unity_root R D0 step s v -> all_committed s -> true_values s (zof s).
Proof.
move=> I hall; have [r1 r2 r3 r4 r5] := ready I hall; split; first by rewrite zof_keys; apply: i_sp I.
move=> k; rewrite om_get_keys; case: (boolP (k \in _)) => [/om_get_someP [ps ek]|/om_get_noneP -> //].
rewrite ek /=; congr Some; rewrite /zval; have := r3 k; rewrite /nP ek /= => sz.
apply: (eq_from_nth (x0 := [::])); first by rewrite !size_map size_iota size_zip sz minnn.
move=> i; rewrite size_map size_iota => hi; rewrite (nth_map 0%N) ?size_iota // nth_iota // add0n (nth_map (0, [::])) ?size_zip ?sz ?minnn //.
by rewrite nth_zip //= /Pq /Sq /= ek.
Qed.
Lemma prove_eq s v tr : roots_ok unity_root K -> check_step_list P -> (sumn sl <= K)%N ->
  inv unity_root R (dom K) (head 0%N sl) s v -> all_committed s -> fixed_values s ->
  small (2 ^ dl) s -> (forall x, x \in dom K -> not_opened s x) ->
  let tt := challenge (foldl absorb tr [seq root e.2 | e <- ls_trees s]) in
  exists fQ tree_Q g ps U V,
  [/\ prove s tr = (olet r <- fri_prove g fQ (ls_trees s) tree_Q tt.2; Some ((zof s, r.1), r.2)),
     forall fp, verify v (zof s, fp) (commitments_of s) tr =
       verify_eval hash_leaf hash_node absorb challenge grind_verify modulus P fp (commitments_of s) tt.1 ps U V tt.2 &
     honest hash_leaf hash_node unity_root K (2 ^ dl) (head 0%N sl) g (ls_trees s) (commitments_of s) tt.1 ps U V fQ tree_Q].
Proof.
move=> ro hsl hK I hall hfix hsm hno tt.
have [Q [fQ [tQ [g [ps [U [V [hQ hfQ hg hv hon]]]]]]]] := honest_state tt.1 ro hsl hK I hall hfix hsm hno.
exists fQ, tQ, g, ps, U, V; split=> //.
- have [r1 r2 r3 r4 r5] := ready I hall; have [e1 e2 _] := steps_ok hsl.
  rewrite /lpc_proof_eval (eval_zof I hall) LpcForge.obnd_some /= -/(om_keys _).
  have -> : size (points s) = size (polys s) by rewrite -(size_map fst) -/(om_keys (points s)) r1 size_map.
  have -> : size (zof s) = size (polys s) by rewrite -(size_map fst) -/(om_keys (zof s)) zof_keys size_map.
  rewrite eqxx /=; move: (erefl tt) hQ; rewrite {1}/tt; case: (challenge _) => theta tr2 <- /= -> /=.
  rewrite e1 /= e2 /= hfQ /=; have [_ _ _ [_ ->] _] := hon; by rewrite /= hg.
move=> fp; rewrite /lpc_verify_eval; have -> : [seq e.2 | e <- commitments_of s] = [seq root e.2 | e <- ls_trees s] by rewrite /commitments_of -map_comp.
move: (erefl tt) hv; rewrite {1}/tt; case: (challenge _) => theta tr2 <- /= hv; by rewrite (groups_same _ _ I) hv.
Qed.

(** After any history of calls that violates no assertion and marks fixed batches in time, the quotient that the prover
    commits to equals, at every point that is not opened, the combination that the verifier makes of the true values of the
    polynomials; its size is bounded by that of the polynomials. *)
Theorem C40_recombination d h s : check_step_list P -> (0 < d)%N ->
  prover_run h = Some s -> marks_in_order h -> all_committed s -> small d s ->
  exists v z, [/\ both_run h = Some (s, v), true_values s z & forall theta, exists Q ps U V,
    [/\ combined_quotient s (Evaluator z (polys s) (ev_locked (ls_ev s)) (points s)) theta = Some Q, (size Q <= d)%N,
      verifier_groups v z theta = Some (ps, U, V) &
      forall x, not_opened s x -> Q.[x] = combination theta (fun id => (entry 0 (polys s) id).[x]) x 0 (zip ps (zip U V))]].
Proof.
move=> hsl hd hr hm hall hsm; have [e1 e2 _] := steps_ok hsl.
have [v hb I] := both_inv e1 e2 hr.
have hfix : fixed_values s by apply: (run_fixed_values e1 e2 hr) => h1 k h2 /hm[].
exists v, (zof s); split=> //; first exact: zof_true I hall.
move=> theta; have [Q [ps [U [V [a1 a2 a3 a4]]]]] := recombined I hall hfix theta hd hsm.
by exists Q, ps, U, V; split=> //; rewrite (groups_same _ _ I).
Qed.

(** The proof of the honest prover carries the true values and is accepted; the transcripts end in the same state. *)
Theorem C40_accepted h s tr pr tr' :
  roots_ok unity_root K -> (2%:R : F) != 0 -> check_step_list P -> (sumn sl <= dl.+1)%N -> (sumn sl <= K)%N ->
  (forall tr w tr', grind tr gp = Some (w, tr') -> grind_verify tr w gp = (true, tr')) ->
  prover_run h = Some s -> marks_in_order h -> all_committed s -> small (2 ^ dl) s -> (forall x, x \in dom K -> not_opened s x) ->
  prove s tr = Some (pr, tr') ->
  exists v, [/\ both_run h = Some (s, v), true_values s pr.1 & verify v pr (commitments_of s) tr = Some (true, tr')].
Proof.
move=> ro two hsl h1 h2 gr hr hm hall hsm hno hp; have [e1 e2 _] := steps_ok hsl.
have [v hb I] := both_inv e1 e2 hr.
have hfix : fixed_values s by apply: (run_fixed_values e1 e2 hr) => h3 k h4 /hm[].
have [fQ [tQ [g [ps [U [V [hpr hv hon]]]]]]] := prove_eq tr ro hsl h2 I hall hfix hsm hno.
move: hp; rewrite hpr; case E: (proof_eval _ _ _ _ _ _ _ _ _ _ _ _ _) => [[fp tr2]|] //= [<- <-].
exists v; split=> //; first exact: zof_true I hall.
rewrite hv; exact: C38_accepted ro two hsl h1 h2 gr hon E.
Qed.

(** The honest prover produces a proof unless the search for a proof of work fails or a query challenge is zero. *)
Theorem C40_produces h s tr :
  roots_ok unity_root K -> (2%:R : F) != 0 -> check_step_list P -> (sumn sl <= dl.+1)%N -> (sumn sl <= K)%N ->
  (2 ^ K %| modulus - 1)%N -> (1 < modulus)%N -> (forall a : F, a != 0 -> a ^+ (modulus - 1) = 1) ->
  prover_run h = Some s -> marks_in_order h -> all_committed s -> small (2 ^ dl) s -> (forall x, x \in dom K -> not_opened s x) ->
  exists rts al tr1, [/\ size rts = size sl,
    round_challenges absorb challenge sl rts (challenge (foldl absorb tr [seq e.2 | e <- commitments_of s])).2 = Some (al, tr1) &
    prove s tr <> None <->
    exists2 tr2, (if ug then omap snd (grind tr1 gp) else Some tr1) = Some tr2 & 0 \notin (challenges challenge lambda tr2).1].
Proof.
move=> ro two hsl h1 h2 d1 d2 d3 hr hm hall hsm hno; have [e1 e2 _] := steps_ok hsl.
have [v hb I] := both_inv e1 e2 hr.
have hfix : fixed_values s by apply: (run_fixed_values e1 e2 hr) => h3 k h4 /hm[].
have [fQ [tQ [g [ps [U [V [hpr hv hon]]]]]]] := prove_eq tr ro hsl h2 I hall hfix hsm hno.
have [rts [al [tr1 [a1 a2 a3]]]] := @C38_produces F Dg hash_leaf hash_node T absorb challenge Pw grind grind_verify modulus unity_root sl dl lambda expand gp ug
  g _ _ _ _ _ _ _ _ (challenge (foldl absorb tr [seq root e.2 | e <- ls_trees s])).2 ro two hsl h1 h2 d1 d2 d3 hon.
exists rts, al, tr1; split=> //; first by rewrite /commitments_of -map_comp; exact: a2.
by rewrite hpr -a3; case: (proof_eval _ _ _ _ _ _ _ _ _ _ _ _ _).
Qed.
End Params.

(** *** Wrong values *)
(** Let [p] be any polynomials with at most [d] coefficients and [z] claimed values, one of those that the verifier reads
    being wrong. There are fewer theta than claims for which the combination of the verifier agrees with a polynomial [Q] on
    enough points: more than the number of coefficients of [Q] and of the polynomials, plus that of the opened points. *)
Theorem C40_wrong_value (v : lpc) (z : eval_storage F) (p : nat * nat -> {poly F}) (d : nat) (thetas : seq F) : (0 < d)%N ->
  ~~ all (right p) (claims v z) -> (forall o, List.In o (claims v z) -> (size (p (cl_id o)) <= d)%N) -> uniq thetas ->
  (forall theta, theta \in thetas -> exists ps U V (Q : {poly F}) (A : seq F),
    [/\ verifier_groups v z theta = Some (ps, U, V), uniq A, {in A, forall x, x \notin [seq cl_point o | o <- claims v z]},
      (maxn (size Q) d + size (undup [seq cl_point o | o <- claims v z]) <= size A)%N &
      {in A, forall x, Q.[x] = combination theta (fun id => (p id).[x]) x 0 (zip ps (zip U V))}]) ->
  (size thetas < size (claims v z))%N.
Proof.
move=> hd hw hsz hu h; apply: (few_thetas (undup_uniq [seq cl_point o | o <- claims v z]) hd _ hw hu).
  move: hsz; have : forall o, List.In o (claims v z) -> cl_point o \in undup [seq cl_point o | o <- claims v z].
    move=> o; rewrite mem_undup; elim: (claims v z) => [|a l ih] //= [->|/ih]; rewrite inE ?eqxx // => ->; by rewrite orbT.
  move: (undup _) => C; elim: (claims v z) => [|o l ih] //= hC hS; rewrite hC ?hS /=; [|by left|by left].
  by apply: ih => o' ho; [apply: hC|apply: hS]; right.
move=> theta /h [ps [U [V [Q [A [hg uA hA sA eA]]]]]]; exists Q, A; split=> //.
  by move=> x /hA; rewrite mem_undup.
by move=> x hx; rewrite eA //; have [_ _ _ -> _] := verifier_groups_inv hg.
Qed.

(** *** The claimed values are not bound *)
Section Verifier.
Variables (P : fri_params F).
Notation verify := (lpc_verify_eval hash_leaf hash_node absorb challenge grind_verify modulus P).
(** The value number [j] claimed for the polynomial [id]; the number under which its value at [c] is looked for *)
Definition value (z : eval_storage F) id j : F := nth 0 (entry [::] z id) j.
Definition number (v : lpc) id c : nat := index c (entry [::] (points v) id).
(** The same numbers of values *)
Definition same_shape (z z' : eval_storage F) : Prop := [/\ om_keys z' = om_keys z,
  forall k, size (odflt [::] (om_get z' k)) = size (odflt [::] (om_get z k)) &
  forall id, size (entry [::] z' id) = size (entry [::] z id)].

Lemma verify_groups v z z' fp commitments tr :
  verifier_groups v z' (challenge (foldl absorb tr [seq e.2 | e <- commitments])).1 =
  verifier_groups v z (challenge (foldl absorb tr [seq e.2 | e <- commitments])).1 ->
  verify v (z', fp) commitments tr = verify v (z, fp) commitments tr.
Proof. by rewrite /lpc_verify_eval; case: (challenge _) => theta tr2 /= ->. Qed.

(** The claimed values are not put into the transcript before theta is drawn. So whoever knows theta can change the values of
    two polynomials at a common point: for every accepted proof and every value [w] there is an accepted proof with the value
    [w]. *)
Theorem C40_forged_refuted v z fp commitments tr r c id1 id2 w :
  let theta := (challenge (foldl absorb tr [seq e.2 | e <- commitments])).1 in
  sorted ltn (om_keys z) -> theta != 0 -> id1 != id2 -> id1 \in places z -> id2 \in places z ->
  c \in entry [::] (points v) id1 -> c \in entry [::] (points v) id2 ->
  verify v (z, fp) commitments tr = Some r ->
  exists z', [/\ same_shape z z', value z' id1 (number v id1 c) = w,
    forall id j, (id, j) <> (id1, number v id1 c) -> (id, j) <> (id2, number v id2 c) -> value z' id j = value z id j &
    verify v (z', fp) commitments tr = Some r].
Proof.
move=> theta hs ht hne h1 h2 c1 c2 hv.
have hsome : isSome (verifier_groups v z theta).
  by move: hv; rewrite /lpc_verify_eval /theta; case: (challenge _) => t tr2 /=; case: verifier_groups.
have [z' [e1 [e2 e2'] e3 e4 e5]] := forge w hs ht hne h1 h2 c1 c2 hsome.
by exists z'; split=> //; rewrite (verify_groups _ e5).
Qed.

(** A value that is not the first one for its point, because the point occurs twice or because there are more values than
    points, is not checked at all. *)
Theorem C40_unchecked_refuted v z fp commitments tr id j w :
  sorted ltn (om_keys z) -> id \in places z -> (j < size (entry [::] z id))%N ->
  (forall c, c \in entry [::] (points v) id -> number v id c != j) ->
  exists z', [/\ same_shape z z', value z' id j = w, forall id' j', (id', j') <> (id, j) -> value z' id' j' = value z id' j' &
    verify v (z', fp) commitments tr = verify v (z, fp) commitments tr].
Proof.
move=> hs hid hj hn; exists (z_set z id j w); split.
- split; [by apply: z_set_keys|by move=> k; apply: z_set_size|by move=> id'; apply: z_set_sizes].
- by rewrite /value z_set_value // !eqxx.
- move=> id' j' ne; rewrite /value z_set_value //; case: eqP => //= e1; case: eqP => //= e2; by case: ne; rewrite e1 e2.
apply: verify_groups; apply: verifier_groups_eq; first exact: z_set_places.
  by move=> id'; apply: z_set_sizes.
move=> c hc /=; apply: eq_in_wsum => id'; rewrite mem_filter => /andP[hc' _]; rewrite /cval z_set_value //.
by case: eqP => //= e1; case: eqP => //= e2; subst id'; move: (hn c hc'); rewrite /number e2 eqxx.
Qed.
End Verifier.
End C40.

Local Arguments stored_batch : simpl never.
Local Arguments precommit_batch : simpl never.
Local Arguments tr_root : simpl never.
Lemma sample_run (F : fieldType) (Dg : eqType) (hl : seq F -> Dg) hn (T : Type) (ch : T -> F * T) ur (P : fri_params F) D0 step (a b c : {poly F})
    t0 t7 tr (x y : F) : vget (fp_D P) 0 = Some D0 -> vget (fp_step_list P) 0 = Some step ->
  precommit_batch ur [:: Coef (coefficients a); Coef (coefficients b)] D0 step = Some t0 ->
  precommit_batch ur [:: Coef (coefficients c)] D0 step = Some t7 ->
  exists s, [/\ LpcSpec.prover_run hl hn ch ur PCoef P
    [:: AppendAll _ 0 [:: a; b]; Commit _ _ 0; MarkFixed _ _ 0; Setup _ tr;
      Append _ 7 c; Commit _ _ 7; EvalPoints _ 0 [:: x]; EvalPointsTo _ 0 1 [:: y]; EvalPoints _ 7 [:: x; y]] = Some s,
    ev_polys (ls_ev s) = [:: (0%N, [:: a; b]); (7%N, [:: c])], ev_points (ls_ev s) = [:: (0%N, [:: [:: x]; [:: x; y]]); (7%N, [:: [:: x; y]])],
    om_keys (ls_trees s) = [:: 0%N; 7%N] & ls_fixed s = [:: (0%N, true)] /\ ls_etha s = (ch tr).1].
Proof.
move=> hD hs h2 h4; rewrite /LpcSpec.prover_run /= /with_ev /append_all_to_batch /= /append_to_batch /= /lpc_commit hD hs /= h2 /=
  /lpc_preprocess /lpc_setup /=.
case: (ch tr) => etha tr' /=; rewrite h4 /=; eexists; split; [reflexivity| | | |]; by [].
Qed.

Lemma sample_marks (F : fieldType) (T : Type) (ps : seq {poly F}) (c : {poly F}) (tr : T) (xs ys zs : seq F) :
  marks_in_order [:: AppendAll _ 0 ps; Commit _ _ 0; MarkFixed _ _ 0; Setup _ tr;
      Append _ 7 c; Commit _ _ 7; EvalPoints _ 0 xs; EvalPointsTo _ 0 1 ys; EvalPoints _ 7 zs].
Proof.
move=> h1 k h2; case: h1 => [|x1 [|x2 [|x3 h1]]] //= [] //.
  by move=> *; subst; split; [right; left|exists tr; left].
move=> _ _ _; do 6 (case: h1 => [|? h1] //= [] // _); by case: h1.
Qed.

(** A history with a fixed batch and another one, opened at common points, over the field of 17 elements; the parameters are
    those of the run of C38. *)
Section Witness.
Local Notation F := [fieldType of 'F_17].
Definition C40_p0 : {poly F} := Poly [:: 1; 2; 3; 4].
Definition C40_p1 : {poly F} := Poly [:: 6; 7].
Definition C40_p2 : {poly F} := Poly [:: 2; 0; 1].
Definition C40_history : seq (call F F) := [:: AppendAll _ 0 [:: C40_p0; C40_p1]; Commit _ _ 0; MarkFixed _ _ 0; Setup _ (6 : F);
  Append _ 7 C40_p2; Commit _ _ 7; EvalPoints _ 0 [:: 3 : F]; EvalPointsTo _ 0 1 [:: 5 : F]; EvalPoints _ 7 [:: 3 : F; 5]].

Lemma stored_Poly (c : seq F) : last 1 c != 0 -> c != [::] -> coefficients (Poly c) = c.
Proof. by move=> h1 h2; rewrite /coefficients -size_poly_eq0 (PolyK h1) size_eq0 (negbTE h2). Qed.
Definition C40_fs0 : seq (fpoly F) := [:: Coef [:: 1; 2; 3; 4]; Coef [:: 6; 7]].
Definition C40_fs7 : seq (fpoly F) := [:: Coef [:: 2; 0; 1]].
Lemma C40_precommit0 : isSome (precommit_batch C38_root C40_fs0 (make_domain C38_root 8) 2).
Proof. by vm_compute. Qed.
Lemma C40_precommit7 : isSome (precommit_batch C38_root C40_fs7 (make_domain C38_root 8) 2).
Proof. by vm_compute. Qed.
Lemma C40_outside : all (fun x => x \notin [:: 3; 5; 6]) (make_domain C38_root 8).
Proof. by vm_compute. Qed.
Lemma C40_D0 : vget (fp_D C38_params) 0 = Some (make_domain C38_root 8).
Proof. by rewrite /C38_params /fri_params_of /= subn0. Qed.
(** The hypotheses of the theorems are met. *)
Example C40_witness : exists s, [/\ LpcSpec.prover_run C38_leaf C38_node C38_challenge C38_root PCoef C38_params C40_history = Some s,
  marks_in_order C40_history, all_committed s, small 4 s & forall x, x \in make_domain C38_root 8 -> not_opened s x].
Proof.
have [e0 e1 e2] : [/\ coefficients C40_p0 = [:: 1; 2; 3; 4], coefficients C40_p1 = [:: 6; 7] & coefficients C40_p2 = [:: 2; 0; 1]].
  by split; apply: stored_Poly; vm_compute.
case h0 : (precommit_batch C38_root C40_fs0 (make_domain C38_root 8) 2) C40_precommit0 => [t0|] // _.
case h7 : (precommit_batch C38_root C40_fs7 (make_domain C38_root 8) 2) C40_precommit7 => [t7|] // _.
have [||s [a1 a2 a3 a4 [a5 a6]]] := @sample_run _ _ C38_leaf C38_node _ C38_challenge C38_root C38_params (make_domain C38_root 8) 2
  C40_p0 C40_p1 C40_p2 t0 t7 (6 : F) 3 5 C40_D0 erefl.
- by rewrite e0 e1.
- by rewrite e2.
exists s; split; [exact: a1|exact: sample_marks| | |].
- by move=> k; rewrite a2 a4.
- move=> [k i] p; rewrite a2 /om_get2 /=; case: k => [|[|[|[|[|[|[|[|k]]]]]]]] //=; case: i => [|[|i]] //= [<-]; apply: (leq_trans (size_Poly _)) => //.
- move=> x hx; have := allP C40_outside _ hx; rewrite !inE !negb_or => /and3P[b1 b2 b3]; split; last first.
    by move=> _ e; rewrite e a6 eqxx in b3.
  move=> [k i] xs; rewrite a3 /om_get2 /=; case: k => [|[|[|[|[|[|[|[|k]]]]]]]] //=; case: i => [|[|i]] //= [<-];
    by rewrite !inE ?negb_or ?b1 ?b2.
Qed.
End Witness.

Print Assumptions C40_recombination.
Print Assumptions C40_accepted.
Print Assumptions C40_produces.
Print Assumptions C40_wrong_value.
Print Assumptions C40_forged_refuted.
Print Assumptions C40_unchecked_refuted.
Print Assumptions C40_witness.
