(** C59: the Kimchi polynomial commitment and its inner product argument. *)
From mathcomp Require Import all_ssreflect all_algebra.
From Verif.Model Require Import Base OrderedMap Domain KnowledgeCommitment KimchiPedersen.
From Verif.Spec Require Import KimchiSpec.
From Verif.Proofs Require Import NatTac FieldTac KcProofs DomainProofs AggregateProofs KimchiProofs.
From Verif.Props Require Import C05_R1csToQap C08_Groth16Complete.
Set Implicit Arguments.
Unset Strict Implicit.
Unset Printing Implicit Defensive.
Import GRing.Theory.
Local Open Scope ring_scope.

Section C59.
Variables (F : fieldType) (V : lmodType F) (g : seq V) (h : V).
Variables (S : Type) (absorb_fr : S -> F -> S) (draw_u : S -> V * S) (absorb_g : S -> V -> S) (squeeze : S -> F * S).
Notation draws := (draws g absorb_fr draw_u absorb_g squeeze).
Notation verify := (ipa_verify g h absorb_fr draw_u absorb_g squeeze).
Notation honest := (honest_batch g h absorb_fr draw_u absorb_g squeeze).

(** A commitment: one Pedersen commitment for each block of as many coefficients as there are bases, with its own blinding element. *)
Theorem C59_commit (poly : seq F) (ws : seq F) w : (0 < size g)%N -> let n := ((size poly + (size g).-1) %/ size g)%N in size ws = n ->
  let: (c, bl) := commitment g h poly None ws w in
  [/\ size (pc_unshifted c) = n, (size poly <= n * size g)%N, pc_unshifted bl = ws, pc_shifted c = 0 &
    forall j, (j < n)%N -> nth 0 (pc_unshifted c) j = \sum_(k < size g) nth 0 poly (j * size g + k) *: nth 0 g k + nth 0 ws j *: h].
Proof.
move=> g0 n hn; rewrite /commitment eqxx /=; have sn : size (segments g poly) = n by rewrite size_map size_iota.
have sz : size [seq multiexp g c | c <- segments g poly] = n by rewrite size_map.
rewrite sz take_oversize ?hn //; split; [by rewrite size_map size_zip sz hn minnn| |by []|by []|].
  rewrite /n; have := divn_eq (size poly + (size g).-1) (size g); have := ltn_pmod (size poly + (size g).-1) g0.
  move: (_ %/ _)%N (_ %% _)%N => q r; have := prednK g0; move: (q * size g)%N ((size g).-1) (size g) (size poly) => a b x y; clear; slia.
move=> j hj; rewrite (nth_map (0, 0)) ?size_zip ?sz ?hn ?minnn // nth_zip ?sz ?hn //; congr (_ + _).
rewrite (nth_map [::]) ?sn // (nth_map 0%N) ?size_iota // nth_iota // add0n (@multiexpE _ _ _ _ (size g)) ?leqnn //.
by apply: eq_bigr => k _; rewrite nth_take // nth_drop.
Qed.

(** The polynomial of the challenges: its value and its coefficients, as the verifier computes them. *)
Theorem C59_coefficients (chals : seq F) :
  (forall x, b_poly chals x = (challenge_poly chals).[x]) /\
  size (b_poly_coefficients chals) = (2 ^ size chals)%N /\ Poly (b_poly_coefficients chals) = challenge_poly chals.
Proof. by split; [exact: b_polyE|rewrite b_poly_coefficientsE size_coefs Poly_coefs]. Qed.

(** The number of rounds: the least power of two that is not smaller than the number of bases. *)
Theorem C59_rounds : (size g <= 2 ^ rounds g)%N /\ forall k, (size g <= 2 ^ k)%N -> (rounds g <= k)%N.
Proof. by split; [exact: rounds_ge|exact: rounds_least]. Qed.

(** What the verifier checks: one combination of the two equations of each batch. *)
Theorem C59_exact rho sigma (bs : seq (batch V S)) ds : [seq draws b | b <- bs] = [seq Some d | d <- ds] ->
  all (fun b => size (ip_lr (bt_opening b)) <= rounds g)%N bs ->
  verify rho sigma bs = Some (\sum_(i < size (zip bs ds))
    (rho ^+ i *: nth 0 [seq batch_opening h q.1 q.2 | q <- zip bs ds] i
     + sigma ^+ i *: nth 0 [seq batch_base g q.1 q.2 | q <- zip bs ds] i) == 0).
Proof.
by move=> hd hl; rewrite (ipa_verifyE _ _ _ hd hl) /power_sum !size_map big_split.
Qed.

(** Batches accepted for enough random elements: all the equations hold, except that those of the first batch hold only in sum. *)
Theorem C59_separate (rs ts : seq F) (bs : seq (batch V S)) ds : [seq draws b | b <- bs] = [seq Some d | d <- ds] ->
  all (fun b => size (ip_lr (bt_opening b)) <= rounds g)%N bs -> (0 < size bs)%N ->
  uniq rs -> uniq ts -> (size bs <= size rs)%N -> (size bs <= size ts)%N ->
  let os := [seq batch_opening h q.1 q.2 | q <- zip bs ds] in let bases := [seq batch_base g q.1 q.2 | q <- zip bs ds] in
  {in rs & ts, forall rho sigma, verify rho sigma bs = Some true} <->
  nth 0 os 0 + nth 0 bases 0 = 0 /\ (forall i, (0 < i)%N -> nth 0 os i = 0 /\ nth 0 bases i = 0).
Proof.
move=> hd hl b0 ur ut hr ht os bases.
have sz : size (zip bs ds) = size bs by rewrite size_zip -(size_map Some ds) -hd size_map minnn.
split=> [H|[e1 e2] rho sigma _ _].
  apply: (@separate _ _ os bases rs ts); rewrite ?size_map ?sz // => rho sigma h1 h2.
  by have := H _ _ h1 h2; rewrite (ipa_verifyE _ _ _ hd hl) => -[/eqP].
rewrite (C59_exact _ _ hd hl) -/os -/bases; congr Some; apply/eqP.
rewrite -sz in b0; case: (size _) b0 => // n _; rewrite big_ord_recl !expr0 !scale1r e1 add0r big1 // => i _.
by have [-> ->] := e2 (bump 0 i) isT; rewrite !scaler0 addr0.
Qed.

(** Honest proofs are accepted, whatever the random elements, in batches of any number, unless a challenge is 0. The polynomials have
    no degree bound, or their number of coefficients as degree bound. *)
Theorem C59_complete rho sigma (bs : seq (batch V S)) : (forall b, List.In b bs -> honest b) ->
  (forall b d, List.In b bs -> draws b = Some d -> all (fun x => x != 0) d.1.2) -> verify rho sigma bs = Some true.
Proof.
move=> hb hc.
have [ds [hd hl e]] : exists ds, [/\ [seq draws b | b <- bs] = [seq Some d | d <- ds], all (fun b => size (ip_lr (bt_opening b)) <= rounds g)%N bs &
    forall i, nth 0 [seq batch_opening h q.1 q.2 | q <- zip bs ds] i = 0 /\ nth 0 [seq batch_base g q.1 q.2 | q <- zip bs ds] i = 0].
  elim: bs hb hc => [|b bs ih] hb hc; first by exists [::]; split=> // i; rewrite !nth_nil.
  have [ds [h1 h2 h3]] := ih (fun b' hin => hb b' (or_intror hin)) (fun b' d hin => hc b' d (or_intror hin)).
  have [d hd] := honest_draws (hb b (or_introl erefl)).
  have [l1 l2 l3] := honest_ok (hb b (or_introl erefl)) hd (hc b d (or_introl erefl) hd).
  exists (d :: ds); split; [by rewrite /= hd h1|by rewrite /= l1 leqnn|case=> [|i] /=; [by rewrite l2 l3|exact: h3]].
by rewrite (C59_exact _ _ hd hl) big1 ?eqxx // => i _; have [-> ->] := e i; rewrite !scaler0 addr0.
Qed.

(** The first batch is not sound: the two equations have the same weight 1 and the point sg is not part of the transcript. For any
    commitments, any claimed values, any points l, r and delta there is a point sg that is accepted, with z1 = z2 = 0, for all
    random elements of the verifier. *)
Theorem C59_forged (s : S) (evs : seq (evaluation V)) (points : seq F) (xi r : F) (lr : seq (V * V)) (delta : V) :
  (size lr <= rounds g)%N -> isSome (draws (Batch s evs points xi r (IpaProof lr delta 0 0 0))) ->
  exists sg, forall rho sigma, verify rho sigma [:: Batch s evs points xi r (IpaProof lr delta 0 0 sg)] = Some true.
Proof.
move=> hl; case hd: (draws _) => [[[[v u] chals] c]|] // _.
exists (c *: (power_sum xi (checked_commitments evs) + v *: u + \sum_(q <- zip lr chals) (q.2^-1 *: q.1.1 + q.2 *: q.1.2)) + delta
  + \sum_(i < size g) (challenge_poly chals)`_i *: nth 0 g i) => rho sigma; set sg := _ + _.
have hd' : [seq draws b | b <- [:: Batch s evs points xi r (IpaProof lr delta 0 0 sg)]] = [seq Some d | d <- [:: (v, u, chals, c)]] by rewrite /= -hd.
rewrite (C59_exact _ _ hd') ?/= ?hl //; congr Some; apply/eqP; rewrite big_ord_recl big_ord0 !expr0 !scale1r addr0 /=.
rewrite /opening_defect /batch_base /base_defect /= !scale0r addr0 subr0; set A := _ + delta; set B := \sum_(i < size g) _.
by rewrite /sg -/A -/B opprD [in X in _ + X]addrC -addrA addNr addr0 subrr.
Qed.

(** Sums, multiples and chunks of commitments; missing segments are 0. *)
Theorem C59_add (c d : poly_comm V) : let s := poly_comm_add c d in
  (forall i, nth 0 (pc_unshifted s) i = nth 0 (pc_unshifted c) i + nth 0 (pc_unshifted d) i) /\ pc_shifted s = pc_shifted c + pc_shifted d.
Proof.
move=> s; split; last first.
  by rewrite /s /poly_comm_add /=; case: eqP => [->|_]; rewrite ?add0r //; case: eqP => [->|_]; rewrite ?addr0.
move=> i; rewrite /s /poly_comm_add /=; case: (ltnP i (maxn (size (pc_unshifted c)) (size (pc_unshifted d)))) => hi; last first.
  move: (hi); rewrite geq_max => /andP[h1 h2]; rewrite nth_default ?size_map ?size_iota // !nth_default ?addr0 //.
rewrite (nth_map 0%N) ?size_iota // nth_iota // add0n; case: ltnP => // h1; case: ltnP => h2.
  by rewrite [nth 0 (pc_unshifted d) i]nth_default ?addr0 //; move: h1; rewrite geq_min leqNgt h2.
by rewrite [nth 0 (pc_unshifted c) i]nth_default ?add0r.
Qed.
Theorem C59_scale (c : poly_comm V) x : (forall i, nth 0 (pc_unshifted (poly_comm_scale c x)) i = x *: nth 0 (pc_unshifted c) i) /\
  pc_shifted (poly_comm_scale c x) = x *: pc_shifted c.
Proof.
split=> // i; case: (ltnP i (size (pc_unshifted c))) => hi; first by rewrite (nth_map 0).
by rewrite !nth_default ?size_map // scaler0.
Qed.
Theorem C59_multi_scalar (cs : seq (poly_comm V)) (xs : seq F) (n : nat) : (0 < size cs)%N -> all (fun c => size (pc_unshifted c) == n) cs ->
  let m := multi_scalar_mul cs xs in
  [/\ size (pc_unshifted m) = n, pc_shifted m = \sum_(j < size cs) nth 0 xs j *: nth 0 [seq pc_shifted c | c <- cs] j &
    forall i, nth 0 (pc_unshifted m) i = \sum_(j < size cs) nth 0 xs j *: nth 0 (nth [::] [seq pc_unshifted c | c <- cs] j) i].
Proof.
move=> c0 hn m; have me (f : poly_comm V -> V) : multiexp [seq f c | c <- cs] xs = \sum_(j < size cs) nth 0 xs j *: nth 0 [seq f c | c <- cs] j.
  by rewrite (@multiexpE _ _ _ _ (size cs)) ?size_map ?leqnn.
have em : m = PolyComm [seq multiexp [seq nth 0 (pc_unshifted c) i | c <- cs] xs | i <- iota 0 n] (multiexp [seq pc_shifted c | c <- cs] xs).
  rewrite /m /multi_scalar_mul; case: cs c0 hn {m me} => // a cs _; set fl := foldl _ _ _; move=> hn; have -> // : fl = n.
  rewrite /fl; have /andP[/eqP -> _] := hn; elim: (a :: cs) hn => //= b bs ih /andP[/eqP -> /ih].
  by rewrite ltnn.
rewrite em /=; split; [by rewrite size_map size_iota|exact: me|].
move=> i; case: (ltnP i n) => hi.
  rewrite (nth_map 0%N) ?size_iota // nth_iota // add0n me; apply: eq_bigr => j _.
  by rewrite (nth_map (PolyComm [::] 0)) // (nth_map (PolyComm [::] 0)).
rewrite nth_default ?size_map ?size_iota // big1 // => j _; rewrite (nth_map (PolyComm [::] 0)) // [X in _ *: X]nth_default ?scaler0 //.
have /(all_nthP (PolyComm [::] 0)) := hn; move=> /(_ j (ltn_ord j))/eqP -> //.
Qed.
Theorem C59_chunk (c : poly_comm V) z : pc_unshifted (chunk_commitment c z) = [:: power_sum z (pc_unshifted c)] /\
  pc_shifted (chunk_commitment c z) = pc_shifted c.
Proof.
split=> //; rewrite /chunk_commitment /=; congr [:: _]; rewrite power_sum_hv foldl_rev.
by elim: (pc_unshifted c) => //= x xs ->; rewrite addrC.
Qed.
End C59.

(** The difference of commitments is not the difference: the tail of a longer subtrahend keeps its sign, and so does its shifted part
    when the own one is 0. *)
Theorem C59_sub_refuted : exists (F : fieldType) (V : lmodType F) (c d : poly_comm V),
  let s := poly_comm_sub c d in
  (exists i, nth 0 (pc_unshifted s) i != nth 0 (pc_unshifted c) i - nth 0 (pc_unshifted d) i) /\ pc_shifted s != pc_shifted c - pc_shifted d.
Proof.
exists C05_F, C08_V, (PolyComm [::] 0), (PolyComm [:: (1 : C05_F)] (1 : C05_F)); split; last by vm_compute.
by exists 0%N; vm_compute.
Qed.
(** Combinations of commitments with different numbers of segments lose the segments beyond the smallest number. *)
Theorem C59_multi_scalar_refuted : exists (F : fieldType) (V : lmodType F) (cs : seq (poly_comm V)) (xs : seq F) i,
  nth 0 (pc_unshifted (multi_scalar_mul cs xs)) i != \sum_(j < size cs) nth 0 xs j *: nth 0 (nth [::] [seq pc_unshifted c | c <- cs] j) i.
Proof.
exists C05_F, C08_V, [:: PolyComm [::] 0; PolyComm [:: (1 : C05_F)] 0], [:: 1; 1], 0%N.
by rewrite 2!big_ord_recl big_ord0 addr0; vm_compute.
Qed.

(** Concrete instances over 'F_17: 3 bases (2 rounds), a sponge with state in the field *)
Definition C59_g : seq C08_V := [:: (3%:R : C05_F); (5%:R : C05_F); (7%:R : C05_F)].
Definition C59_h : C08_V := (11%:R : C05_F).
Definition C59_fr (s x : C05_F) : C05_F := s * 3%:R + x + 1.
Definition C59_u (s : C05_F) : C08_V * C05_F := (s * s + 2%:R, s * 5%:R + 1).
Definition C59_ab (s : C05_F) (p : C08_V) : C05_F := s * 2%:R + (p : C05_F) + 4%:R.
Definition C59_sq (s : C05_F) : C05_F * C05_F := (s * s + 3%:R, s * 7%:R + 2%:R).
Definition C59_polys : seq (honest_input C05_F) :=
  [:: ([:: 1; 2%:R; 3%:R; 4%:R; 5%:R], [:: 6%:R; 7%:R], Some 3%:R); ([:: 8%:R; 9%:R], [:: 2%:R], None)].
Definition C59_points : seq C05_F := [:: 2%:R; 10%:R].
Definition C59_prove polys :=
  (ipa_prove C59_g C59_h C59_fr C59_u C59_ab C59_sq (honest_polys C59_g C59_h polys) C59_points 5%:R 6%:R [:: (1, 2%:R); (3%:R, 4%:R)] 9%:R 8%:R 1).1.
(** The values at the points, in a form that computes *)
Definition C59_evals (F : fieldType) (V : lmodType F) (g : seq V) (h : V) (points : seq F) (polys : seq (honest_input F)) : seq (evaluation V) :=
  [seq Evaluation (honest_commitment g h p).1 [seq [seq peval seg x | seg <- segments g p.1.1] | x <- points] (honest_bound p) | p <- polys].
Lemma C59_evalsE (F : fieldType) (V : lmodType F) (g : seq V) (h : V) points polys : C59_evals g h points polys = honest_evaluations g h points polys.
Proof. by apply: eq_map => p; congr Evaluation; apply: eq_map => x; apply: eq_map => seg; rewrite pevalE. Qed.
Definition C59_batch : batch C08_V C05_F :=
  Batch 1 (C59_evals C59_g C59_h C59_points C59_polys) C59_points 5%:R 6%:R (C59_prove C59_polys).
Notation C59_draws := (draws C59_g C59_fr C59_u C59_ab C59_sq).
Notation C59_verify := (ipa_verify C59_g C59_h C59_fr C59_u C59_ab C59_sq).

Example C59_complete_witness : honest_batch C59_g C59_h C59_fr C59_u C59_ab C59_sq C59_batch /\
  (if C59_draws C59_batch is Some d then all (fun x => x != 0) d.1.2 && (size d.1.2 == 2%N) else false) /\
  C59_verify 3%:R 5%:R [:: C59_batch; C59_batch] = Some true.
Proof.
split; last by split; vm_compute.
exists C59_polys, C59_points, 5%:R, 6%:R, [:: (1, 2%:R); (3%:R, 4%:R)], 9%:R, 8%:R, 1.
by split; [vm_compute|vm_compute|vm_compute|rewrite /C59_batch C59_evalsE].
Qed.
(** A wrong response in the second batch is rejected. *)
Definition C59_wrong : batch C08_V C05_F :=
  let o := C59_prove C59_polys in
  Batch 1 (C59_evals C59_g C59_h C59_points C59_polys) C59_points 5%:R 6%:R (IpaProof (ip_lr o) (ip_delta o) (ip_z1 o + 1) (ip_z2 o) (ip_sg o)).
Example C59_separate_witness : size (ip_lr (bt_opening C59_wrong)) = rounds C59_g /\ isSome (C59_draws C59_wrong) /\
  C59_verify 3%:R 5%:R [:: C59_batch; C59_wrong] = Some false /\ uniq [:: 1; 2%:R : C05_F].
Proof. by split; [vm_compute|split; [vm_compute|split; vm_compute]]. Qed.
(** The forgery, for values that the committed polynomials do not have. *)
Definition C59_false : seq (evaluation C08_V) := [:: Evaluation (PolyComm [:: C59_h] 0) [:: [:: 4%:R]; [:: 5%:R]] None].
Example C59_forged_witness : isSome (C59_draws (Batch 1 C59_false C59_points 5%:R 6%:R (IpaProof [:: (C59_h, C59_h); (C59_h, C59_h)] C59_h 0 0 0))) /\
  (size [:: (C59_h, C59_h); (C59_h, C59_h)] <= rounds C59_g)%N /\
  has (fun sg : C08_V => C59_verify 3%:R 5%:R [:: Batch 1 C59_false C59_points 5%:R 6%:R (IpaProof [:: (C59_h, C59_h); (C59_h, C59_h)] C59_h 0 0 sg)] == Some true)
    [seq (i%:R : C05_F) | i <- iota 0 17].
Proof. by split; [vm_compute|split; vm_compute]. Qed.
(** A degree bound above the number of coefficients, in the same block: the prover shifts the last segment to the end of the bases,
    the commitment and the verifier shift it by the bound; an honest proof is rejected. *)
Theorem C59_bound_refuted : exists (F : fieldType) (V : lmodType F) (g : seq V) (h : V) (S : Type) (absorb_fr : S -> F -> S) (draw_u : S -> V * S)
    (absorb_g : S -> V -> S) (squeeze : S -> F * S) (poly ws points : seq F) (w : F) (bound : nat) (rnd : seq (F * F)) (xi r d r_delta : F) (s : S),
  let c := commitment g h poly (Some bound) ws w in
  let b := Batch s [:: Evaluation c.1 [seq [seq (Poly seg).[x] | seg <- segments g poly] | x <- points] (Some bound)] points xi r
    (ipa_prove g h absorb_fr draw_u absorb_g squeeze [:: PolySingle poly (Some bound) c.2] points xi r rnd d r_delta s).1 in
  [/\ (size poly <= bound)%N, size ws = size (segments g poly), pc_shifted c.1 != 0, size rnd = rounds g &
    (if draws g absorb_fr draw_u absorb_g squeeze b is Some d then all (fun x => x != 0) d.1.2 else false) /\
    ipa_verify g h absorb_fr draw_u absorb_g squeeze 1 1 [:: b] = Some false].
Proof.
exists C05_F, C08_V, C59_g, C59_h, C05_F, C59_fr, C59_u, C59_ab, C59_sq, [:: 1; 2%:R; 3%:R; 4%:R], [:: 6%:R; 7%:R], C59_points, 3%:R, 5%N,
  [:: (1, 2%:R); (3%:R, 4%:R)], 5%:R, 6%:R, 9%:R, 8%:R, 1.
have -> : [seq [seq (Poly seg).[x] | seg <- segments C59_g [:: 1; 2%:R; 3%:R; 4%:R]] | x <- C59_points] =
    [seq [seq peval seg x | seg <- segments C59_g [:: 1; 2%:R; 3%:R; 4%:R]] | x <- C59_points].
  by apply: eq_map => x; apply: eq_map => seg; rewrite pevalE.
by split; [vm_compute|vm_compute|vm_compute|vm_compute|split; vm_compute].
Qed.
Example C59_commit_witness : (0 < size C59_g)%N /\ size [:: 6%:R; 7%:R : C05_F] = ((5 + (size C59_g).-1) %/ size C59_g)%N.
Proof. by split; vm_compute. Qed.

Print Assumptions C59_commit.
Print Assumptions C59_coefficients.
Print Assumptions C59_rounds.
Print Assumptions C59_exact.
Print Assumptions C59_separate.
Print Assumptions C59_complete.
Print Assumptions C59_forged.
Print Assumptions C59_add.
Print Assumptions C59_scale.
Print Assumptions C59_multi_scalar.
Print Assumptions C59_chunk.
Print Assumptions C59_bound_refuted.
Print Assumptions C59_sub_refuted.
Print Assumptions C59_multi_scalar_refuted.
