(** C30: the chunks of the quotient polynomial recombine. *)
From mathcomp Require Import all_ssreflect all_algebra.
From Verif.Model Require Import Base OrderedMap Quotient.
From Verif.Proofs Require Import NatTac QuotientProofs.
Set Implicit Arguments.
Unset Strict Implicit.
Unset Printing Implicit Defensive.
Import GRing.Theory.
Local Open Scope ring_scope.

Section C30.
Variable F : fieldType.
Implicit Types (f : seq F) (y : F).

(** The chunks are the consecutive pieces of the coefficient vector: in order, none lost, none empty, each of at most
    [max_degree + 1] coefficients, as few as possible. *)
Theorem C30_chunks f max_degree :
  [/\ flatten (split_polynomial f max_degree) = f,
      forall c, c \in split_polynomial f max_degree -> (0 < size c <= max_degree.+1)%N &
      forall n, (size (split_polynomial f max_degree) <= n)%N = (size f <= n * max_degree.+1)%N].
Proof.
rewrite /split_polynomial; split=> [|c|n]; first by rewrite split_loop_flatten ?drop0 ?subn0.
  exact: split_loop_sizes.
by rewrite size_split_loop ?subn0 // ceil_div_le.
Qed.

(** Every chunk has degree at most [max_degree], and the chunks recombine to the polynomial at every point. *)
Theorem C30_recombine f max_degree y :
  recombine max_degree.+1 y [seq (Poly c).[y] | c <- split_polynomial f max_degree] = (Poly f).[y].
Proof.
rewrite recombineE size_map -[f in RHS]drop0 -(@split_loop_horner _ (size f) f max_degree.+1 0) ?subn0 //.
by apply: eq_big_nat => i /andP[_ hi]; rewrite (nth_map [::]).
Qed.
Theorem C30_degree f max_degree c : c \in split_polynomial f max_degree -> (size (Poly c) <= max_degree.+1)%N.
Proof. by have [_ h _] := C30_chunks f max_degree; case/h/andP => _; apply: leq_trans (size_Poly c). Qed.

(** The committed vector: [split_size] polynomials of degree below [rows] that recombine to the quotient at every point;
    they exist exactly when the quotient has at most [split_size * rows] coefficients. *)
Theorem C30_committed f rows split_size : (0 < rows)%N ->
  (size f <= split_size * rows)%N ->
  exists ts, [/\ quotient_chunks f rows split_size = Some ts, size ts = split_size,
    (forall t, t \in ts -> (size t <= rows)%N) &
    forall y, recombine rows y [seq t.[y] | t <- ts] = (Poly f).[y]].
Proof.
case: rows => // rows _ h; have [_ _ hc] := C30_chunks f rows.
rewrite /quotient_chunks subn1 /= hc h; eexists; split; first by [].
- by rewrite size_cat size_map size_nseq subnKC // hc.
- move=> t; rewrite mem_cat => /orP[/mapP[c hcc ->]|]; first exact: C30_degree hcc.
  by rewrite mem_nseq => /andP[_ /eqP->]; rewrite size_poly0.
move=> y; rewrite recombineE size_map size_cat size_map size_nseq.
set ch := split_polynomial f rows; have hs : (size ch <= split_size)%N by rewrite hc.
rewrite (subnKC hs) (big_cat_nat _ _ _ (leq0n _) hs) /= -[RHS](C30_recombine f rows) recombineE size_map -/ch.
rewrite -[RHS]addr0; congr (_ + _).
  apply: eq_big_nat => i /andP[_ hi]; rewrite (nth_map 0) ?size_cat ?size_map ?ltn_addr // nth_cat size_map hi.
  by rewrite (nth_map [::]) // (nth_map [::]).
rewrite big_nat_cond big1 // => i /andP[/andP[h1 h2] _].
rewrite (nth_map 0); last by rewrite size_cat size_map size_nseq subnKC.
by rewrite nth_cat size_map ltnNge h1 /= nth_nseq if_same horner0 mul0r.
Qed.
Theorem C30_overflow f rows split_size : (0 < rows)%N ->
  quotient_chunks f rows split_size = None <-> (split_size * rows < size f)%N.
Proof.
case: rows => // rows _; have [_ _ hc] := C30_chunks f rows.
by rewrite /quotient_chunks subn1 /= hc; case: leqP.
Qed.

(** The vector is long enough for every quotient whose size is within one of the three bounds and, if the parameter
    [max_quotient_chunks] is set, within that number of chunks. (The quotient by the vanishing polynomial of a constraint
    polynomial of degree at most [(k + 1) (rows - 1)] has size at most [k (rows - 1)].) *)
Theorem C30_fits (T : {poly F}) rows ids lookup gates max_quotient_chunks :
  (1 < rows)%N -> (size T <= maxn (maxn (ids + 2) (lookup + 1)) (gates + 1) * (rows - 1))%N ->
  (max_quotient_chunks = 0 \/ size T <= max_quotient_chunks * rows)%N ->
  (size (coefficients T) <= split_polynomial_size rows ids lookup gates max_quotient_chunks * rows)%N.
Proof.
move=> hr h hc; rewrite size_coefficients /split_polynomial_size /= -!maxnMl in h *.
have h0 : (0 < maxn (maxn (ids + 2) (lookup + 1)) (gates + 1) * (rows - 1))%N.
  by rewrite muln_gt0 subn_gt0 hr !leq_max !addn_gt0 !orbT.
move: h h0; move: (maxn _ _ * _)%N => m h h0.
have hm : (m <= (if (m %% rows)%N != 0%N then m %/ rows + 1 else m %/ rows) * rows)%N.
  rewrite {1}(divn_eq m rows); case: eqP => [->|_]; first by rewrite addn0.
  by rewrite mulnDl mul1n leq_add2l ltnW // ltn_mod (ltn_trans _ hr).
case: ifP => [/andP[c0 _]|_]; rewrite geq_max; apply/andP; split.
- by rewrite muln_gt0 lt0n c0 (ltn_trans _ hr).
- by case: hc => // e; rewrite e in c0.
- exact: leq_trans h0 hm.
- exact: leq_trans h hm.
Qed.

(** Finding: a [max_quotient_chunks] that is too small makes the prover write past the end of the vector. *)
Theorem C30_max_quotient_chunks_refuted : exists (T : {poly F}) rows ids lookup gates chunks,
  [/\ (0 < chunks)%N, (size T + rows <= (gates + 1) * (rows - 1) + 1)%N &
      quotient_chunks (coefficients T) rows (split_polynomial_size rows ids lookup gates chunks) = None].
Proof.
exists ('X^4), 4%N, 0%N, 0%N, 3%N, 1%N; split=> //; first by rewrite size_polyXn.
by apply/C30_overflow => //; rewrite size_coefficients size_polyXn.
Qed.
End C30.

Example C30_witness : let F := [fieldType of 'F_7] in
  let f := [seq n%:R | n <- [:: 3; 1; 4; 1; 5]%N] : seq F in
  split_polynomial f 1 = [:: [:: 3%:R; 1%:R]; [:: 4%:R; 1%:R]; [:: 5%:R]] /\ split_polynomial_size 4 2 0 3 0 = 3%N /\ split_polynomial_size 4 2 0 3 2 = 2%N.
Proof. by []. Qed.

Print Assumptions C30_chunks.
Print Assumptions C30_recombine.
Print Assumptions C30_degree.
Print Assumptions C30_committed.
Print Assumptions C30_overflow.
Print Assumptions C30_fits.
Print Assumptions C30_max_quotient_chunks_refuted.
