(** C56: FRI accepts only what is close to a polynomial of low degree. *)
From mathcomp Require Import all_ssreflect all_algebra.
From Verif.Model Require Import Base OrderedMap Domain FoldPolynomial MerkleTree Quotient Fri.
From Verif.Spec Require Import FriSpec ProximitySpec.
From Verif.Proofs Require Import NatTac FieldTac PermProofs KzgProofs PackingProofs PlaceholderRun DomainProofs FriIndex FriLayout FriFold FriRounds FriComplete FriSound Proximity ProximityChain ProximityCount.
From Verif.Props Require Import C38_FriComplete C49_FriQuery.
Set Implicit Arguments.
Unset Strict Implicit.
Unset Printing Implicit Defensive.
Import GRing.Theory.
Local Open Scope ring_scope.

Section C56.
Variable F : fieldType.
Variable unity_root : nat -> F.
Notation dom j := (make_domain unity_root (2 ^ j)).

(** Few challenges hide errors, whatever the vector: at most twice the number of errors plus one. *)
Theorem C56_few K B E j v (alphas : seq F) : roots_ok unity_root K -> (2%:R : F) != 0 -> (3 * E + B <= 2 ^ K)%N -> (j < K)%N ->
  uniq alphas -> (forall alpha, alpha \in alphas -> hides_errors unity_root j (B %/ 2 ^ (K - j)) (E %/ 2 ^ (K - j)) v alpha) ->
  (size alphas <= (2 * (E %/ 2 ^ (K - j))).+1)%N.
Proof.
exact: hides_few_at.
Qed.

(** If no challenge hides errors and the vectors of the rounds are consistent at all but [E] points, then the first vector has
    at these points the values of one polynomial. *)
Theorem C56_proximity K B E sl alphas ws (final : {poly F}) (X : seq nat) : roots_ok unity_root K -> sl != [::] -> (sumn sl <= K)%N ->
  size alphas = sumn sl -> (size final * 2 ^ sumn sl <= B)%N -> uniq X -> all (fun i => i < 2 ^ K)%N X -> (2 ^ K <= size X + E)%N ->
  (forall i, i \in X -> consistent_at unity_root final K sl alphas ws i) ->
  errors_hidden unity_root K B E sl alphas ws \/
  exists2 p : {poly F}, (size p <= B)%N & forall i, i \in X -> nth 0 (head [::] ws) i = p.[nth 0 (dom K) i].
Proof.
move=> ro hsl hs sa sf uX hX sX hc.
case: (@chain_rounds F unity_root K B E ro final sl ws alphas K X) => //.
- by rewrite subnn divn1.
- by rewrite subKn // leq_divRL ?expn_gt0.
- by left.
case=> p; rewrite subnn divn1 => sp hp; right; exists p => // i hi; rewrite nth_dom ?(allP hX) //.
by apply: hp; [exact: (allP hX)|apply: map_f].
Qed.

(** A prover follows a strategy, and its first vector is far from every polynomial with at most [B] coefficients: no such polynomial
    agrees with it except at [E] points. The challenges are drawn from [A]. There are few sequences of challenges, at most a fraction
    of (number of foldings) (E + 1) / (number of challenges), after which the prover can still find a final polynomial such that
    the vectors are consistent at all but [E] indices. *)
Theorem C56_strategy K B E sl (strategy : seq F -> seq F) (A : seq F) (S : seq (seq F)) : roots_ok unity_root K -> (2%:R : F) != 0 ->
  (3 * E + B <= 2 ^ K)%N -> sl != [::] -> (sumn sl <= K)%N ->
  (forall p : {poly F}, (size p <= B)%N -> (size (agreement (dom K) (strategy [::]) p) + E < 2 ^ K)%N) ->
  uniq S ->
  (forall alphas, alphas \in S -> [/\ size alphas = sumn sl, {subset alphas <= A} &
    exists (final : {poly F}) X, [/\ (size final * 2 ^ sumn sl <= B)%N, uniq X, all (fun i => i < 2 ^ K)%N X, (2 ^ K <= size X + E)%N &
      forall i, i \in X -> consistent_at unity_root final K sl alphas (strategy_vectors strategy sl [::] alphas) i]]) ->
  (size S <= sumn sl * E.+1 * size A ^ (sumn sl).-1)%N.
Proof.
move=> ro two hE hsl hs far uS hS; apply: (strategy_few (strat := strategy) (A := A) ro two hE hs uS) => al hal.
have [sa ss [final [X [h1 h2 h3 h4 h5]]]] := hS _ hal; split=> //.
case: (C56_proximity ro hsl hs sa h1 h2 h3 h4 h5) => // -[p sp hp]; exfalso.
have := far p sp; rewrite ltnNge => /negP; apply; apply: leq_trans h4 _; rewrite leq_add2r; apply: uniq_leq_size => // i hi.
rewrite mem_filter mem_iota size_dom (allP h3) // andbT leq0n andbT -hp //.
by case: (sl) hsl => // l sl' _; rewrite eqxx.
Qed.

Section Verifier.
Variables (Dg : eqType) (hash_leaf : seq F -> Dg) (hash_node : Dg -> Dg -> Dg).
Variables (T : Type) (absorb : T -> Dg -> T) (challenge : T -> F * T).
Variables (Pw : Type) (grind_verify : T -> Pw -> nat -> bool * T).
Variable modulus : nat.
Notation verify := (verify_eval hash_leaf hash_node absorb challenge grind_verify modulus).
Notation broken := (hash_broken hash_leaf hash_node).
Notation combined_at := (combined_at unity_root).
Variables (sl : seq nat) (dl lambda expand gp : nat) (ug : bool).
Notation K := (dl + expand)%N.
Notation P := (fri_params_of unity_root sl dl lambda expand ug gp).

(** A query of the index [i] can succeed: what C49 says of it holds. *)
Definition passes batches theta poly_ids U V (final : seq F) alphas ws (i : nat) : Prop :=
  (forall i', (i' < 2 ^ K)%N -> (i' == i %[mod 2 ^ (K - head 0%N sl)])%N -> combined_at batches theta poly_ids U V K (head [::] ws) i') /\
  consistent_at unity_root (Poly final) K sl alphas ws i.

Lemma consistent_dec (final : {poly F}) s : forall j alphas ws i,
  consistent_at unity_root final j s alphas ws i \/ ~ consistent_at unity_root final j s alphas ws i.
Proof.
elim: s => [|step s ih] j alphas [|w ws] i /=; try by [left|right].
set a := nth 0 _ _; set b := if ws is _ :: _ then _ else _.
case: (eqVneq a b) => [->|/eqP ne]; last by right=> -[].
by case: (ih (j - step)%N (drop step alphas) ws (i %% 2 ^ (j - step))%N) => h; [left|right=> -[]].
Qed.
Lemma combined_dec batches theta poly_ids U V k (w : seq F) i :
  combined_at batches theta poly_ids U V k w i \/ ~ combined_at batches theta poly_ids U V k w i.
Proof.
pose ok id := if om_get batches id.1 is Some vs then (id.2 < size vs)%N else false.
have okP : forall id, reflect (exists2 vs, om_get batches id.1 = Some vs & (id.2 < size vs)%N) (ok id).
  move=> id; rewrite /ok; case: (om_get batches id.1) => [vs|]; last by apply: ReflectF; case.
  by apply: (iffP idP) => [h|[vs' [->]]] //; exists vs.
rewrite /C49_FriQuery.combined_at.
case h1 : (all ok (flatten poly_ids)); last first.
  right=> -[h _ _]; move/negP: h1; apply; apply/allP => id hid; apply/okP; exact: h.
case h2 : (all _ V); last by right=> -[].
set rhs := combination _ _ _ _ _; case: (eqVneq (nth 0 w i) rhs) => [h3|/eqP h3]; last by right=> -[].
by left; split=> // id hid; apply/okP; apply: (allP h1).
Qed.
Lemma below_dec (Q : nat -> Prop) n : (forall i, Q i \/ ~ Q i) -> (forall i, (i < n)%N -> Q i) \/ ~ (forall i, (i < n)%N -> Q i).
Proof.
move=> hQ; elim: n => [|n [ih|ih]]; [by left| |by right=> h; apply: ih => i hi; apply: h; apply: ltnW].
case: (hQ n) => h; last by right=> h2; apply: h; apply: h2.
by left=> i; rewrite ltnS leq_eqVlt => /orP[/eqP ->|/ih].
Qed.
Lemma passes_dec batches theta poly_ids U V final alphas ws i :
  passes batches theta poly_ids U V final alphas ws i \/ ~ passes batches theta poly_ids U V final alphas ws i.
Proof.
case: (consistent_dec (Poly final) sl K alphas ws i) => h1; last by right=> -[].
case: (@below_dec (fun i' => (i' == i %[mod 2 ^ (K - head 0%N sl)])%N -> combined_at batches theta poly_ids U V K (head [::] ws) i') (2 ^ K)).
- move=> i'; case: eqP => _; last by left.
  by case: (combined_dec batches theta poly_ids U V K (head [::] ws) i') => h; [left|right=> /(_ isT)].
- by left.
- by move=> h; right=> -[].
Qed.
Lemma collect (Q : nat -> Prop) n : (forall i, Q i \/ ~ Q i) -> exists2 X, uniq X & forall i, i \in X <-> (i < n)%N /\ Q i.
Proof.
move=> hQ; elim: n => [|n [X uX hX]]; first by exists [::] => // i; split=> // -[].
case: (hQ n) => h.
  exists (n :: X); first by rewrite /= uX andbT; apply/negP => /hX[]; rewrite ltnn.
  move=> i; rewrite inE; split=> [/orP[/eqP ->|/hX[h1 h2]]|[]]; [by split|by split=> //; apply: ltnW|].
  rewrite ltnS leq_eqVlt => /orP[-> //|h1 h2]; apply/orP; right; exact/hX.
exists X => // i; rewrite hX; split=> -[h1 h2]; split=> //; first exact: ltnW.
by move: h1; rewrite ltnS leq_eqVlt => /orP[/eqP e|//]; case: h; rewrite -e.
Qed.
Lemma or_below (A : Prop) (Q : nat -> Prop) n : (forall i, (i < n)%N -> A \/ Q i) -> A \/ forall i, (i < n)%N -> Q i.
Proof.
elim: n => [|n ih] h; first by right.
case: (h n (ltnSn n)) => [|h1]; [by left|]; case: ih => [i hi|h2|h2]; [by apply: h; apply: ltnW|by left|].
by right=> i; rewrite ltnS leq_eqVlt => /orP[/eqP ->|/h2].
Qed.

(** Let a proof be accepted, and let the Merkle proofs of its queries open the leaves that the queries determine. Then, unless
    the hashing of the trees is broken or one of the challenges hides errors: all queries fell into the set [X] of indices at
    which a query can succeed, a set that is fixed before they are drawn; and either more than [E] indices are outside of [X], or
    at all points of [X] the combination of the committed vectors has the values of one polynomial of the degree checked by FRI
    (twice the number of coefficients that the parameters ask for, see C49). *)
Theorem C56_accepted commitments batches (pr : fri_proof F Dg Pw) ws theta poly_ids U V tr tr' E :
  roots_ok unity_root K -> (2%:R : F) != 0 -> (sumn sl <= K)%N -> (3 * E + 2 * 2 ^ dl <= 2 ^ K)%N ->
  (forall k c, om_get commitments k = Some c ->
     exists2 vs, om_get batches k = Some vs & commits_to hash_leaf hash_node K (head 0%N sl) vs c) ->
  round_commitments hash_leaf hash_node K sl ws (pf_roots pr) ->
  verify P pr commitments theta poly_ids U V tr = Some (true, tr') ->
  exists alphas tr1 tr2, [/\ round_challenges absorb challenge sl (pf_roots pr) tr = Some (alphas, tr1),
    if ug then exists2 w, pf_pow pr = Some w & grind_verify tr1 w gp = (true, tr2) else tr2 = tr1 &
    let x n := index (nth 0 (challenges challenge lambda tr2).1 n ^+ ((modulus - 1) %/ 2 ^ K)) (dom K) in
    (forall n q, (n < lambda)%N -> vget (pf_queries pr) n = Some q -> positions K sl q (x n)) ->
    [\/ broken, errors_hidden unity_root K (2 * 2 ^ dl) E sl alphas ws |
     exists X : seq nat, [/\ uniq X,
       forall i, i \in X <-> (i < 2 ^ K)%N /\ passes batches theta poly_ids U V (pf_final pr) alphas ws i,
       forall n, (n < lambda)%N -> x n \in X &
       (size X + E < 2 ^ K)%N \/ exists2 p : {poly F}, (size p <= 2 * 2 ^ dl)%N & forall i, i \in X ->
         combination theta (fun id => nth 0 (vector_of batches id) i) (nth 0 (dom K) i) 0 (zip poly_ids (zip U V)) =
         p.[nth 0 (dom K) i]]]].
Proof.
move=> ro two hK hE com rc hv.
have [alphas [tr1 [tr2 [hch hg hq]]]] := C49_accepted ro two hK com rc hv.
exists alphas, tr1, tr2; split=> // x hpos.
have [hsl hdeg] : sl != [::] /\ (size (pf_final pr) * 2 ^ sumn sl <= 2 * 2 ^ dl)%N.
  move: hv; rewrite /verify_eval => /ogP[hs] /ogP[_]; case: ifP => // /negbFE /andP[_ hd] _.
  split; first by move: hs; rewrite /check_step_list /=; case: (sl).
  by move: hd; rewrite /= subn1 prednK // expn_gt0.
have hsz : size alphas = sumn sl by exact: (round_challenges_size hch).
have [X uX hX] := collect (2 ^ K) (passes_dec batches theta poly_ids U V (pf_final pr) alphas ws).
have : broken \/ forall n, (n < lambda)%N -> x n \in X.
  apply: or_below => n hn; have [q h1 h2] := hq n hn; case: (h2 (hpos n q hn h1)) => hin [|[h3 h4]]; [by left|right].
  by apply/hX; split=> //; have := index_mem (nth 0 (challenges challenge lambda tr2).1 n ^+ ((modulus - 1) %/ 2 ^ K)) (dom K); rewrite size_dom hin.
case=> [|hall]; first by constructor 1.
case: (leqP (2 ^ K) (size X + E)) => hlt; last by constructor 3; exists X; split=> //; left.
have hXlt : all (fun i => i < 2 ^ K)%N X by apply/allP => i /hX[].
have hXc : forall i, i \in X -> consistent_at unity_root (Poly (pf_final pr)) K sl alphas ws i by move=> i /hX[_ []].
have hf : (size (Poly (pf_final pr)) * 2 ^ sumn sl <= 2 * 2 ^ dl)%N.
  by apply: leq_trans hdeg; rewrite leq_mul2r size_Poly orbT.
case: (C56_proximity ro hsl hK hsz hf uX hXlt hlt hXc) => [|[p sp hp]]; first by constructor 2.
constructor 3; exists X; split=> //; right; exists p => // i hi; rewrite -hp //.
by have [h1 [h2 _]] := (hX i).1 hi; have [_ _ ->] := h2 i h1 (eqxx _).
Qed.
End Verifier.
End C56.

(** ** Examples on a domain of eight points, with one error *)
Section Witness.
Let F := [fieldType of 'F_17].
Notation D j := (make_domain C38_root (2 ^ j)).
Definition C56_w : seq F := [:: 6; 5; 5; 5; 5; 5; 5; 5].
Definition C56_X : seq nat := [:: 1; 2; 3; 5; 6; 7]%N.
(** The hypotheses of C56_proximity hold, although the vector is not a polynomial. *)
Example C56_proximity_witness : [/\ roots_ok C38_root 3, (3 * 2 + 2 <= 2 ^ 3)%N, uniq C56_X, (2 ^ 3 <= size C56_X + 2)%N &
  forall i, i \in C56_X -> consistent_at C38_root (Poly [:: 5]) 3 [:: 1]%N [:: 3] [:: C56_w] i].
Proof.
split; [exact: C38_roots|by []|by []|by []|].
have h : all (fun i => nth 0 (folded_many C38_root 3 [:: 3] C56_w) (i %% 4) == peval [:: 5] (C38_root 4 ^+ (i %% 4))) C56_X by vm_compute.
by move=> i /(allP h)/eqP e; split; [rewrite -pevalE; exact: e|].
Qed.
(** The challenge 3 hides no errors, -1 does. *)
Lemma C56_const (q : {poly F}) : (size q <= 1)%N -> exists c, q = c%:P.
Proof. by move/size1_polyC => ->; exists q`_0. Qed.
Lemma C56_els (z : F) : z \in [seq i%:R | i <- iota 0 17].
Proof. exact: C49_els. Qed.
Lemma C56_agree (a c : F) : agreement (D 2) (folded C38_root 2 a C56_w) c%:P =
  filter (fun i : nat => nth 0 (folded C38_root 2 a C56_w) i == c) (iota 0 4).
Proof. by rewrite /agreement size_dom; apply: eq_filter => i; rewrite hornerC. Qed.
Lemma C56_others : all (fun c : F => (c == 5%:R) ||
    (size (filter (fun i : nat => nth 0%R (folded C38_root 2 3%:R C56_w) i == c) (iota 0 4)) + 1 < 4)%N) [seq i%:R | i <- iota 0 17].
Proof. by vm_compute. Qed.
Lemma C56_fives : all (fun i => (nth 0 C56_w i == 5%:R) && (nth 0 C56_w (i + 2 ^ 2) == 5%:R))
  (filter (fun i : nat => nth 0 (folded C38_root 2 3%:R C56_w) i == 5%:R :> F) (iota 0 4)).
Proof. by vm_compute. Qed.
Example C56_not_hidden_witness : ~ errors_hidden C38_root 3 2 2 [:: 1]%N [:: 3%:R] [:: C56_w].
Proof.
case=> f; rewrite [foldings _ _ _ _ _]/= inE => /eqP ->; cbn [fst snd] => -[q [sq hq hp]].
have [c ec] := C56_const sq; move: hq hp; rewrite ec C56_agree => hq hp.
case/orP: (allP C56_others _ (C56_els c)) => [/eqP c5|h1]; last by move: h1; rewrite ltnNge => /negP; apply.
have [|i hi] := hp 5%:R%:P; first by apply: leq_trans (size_polyC_leq1 _) _.
by apply; rewrite c5 in hi; move: (allP C56_fives _ hi) => /andP[/eqP e1 /eqP e2]; rewrite !hornerC; congr pair.
Qed.
Lemma C56_all : all (fun i : nat => nth 0 (folded C38_root 2 (- 1) C56_w) i == 5%:R :> F) (iota 0 4).
Proof. by vm_compute. Qed.
Example C56_hidden_witness : hides_errors C38_root 2 1 1 C56_w (- 1).
Proof.
exists 5%:R%:P; rewrite C56_agree (all_filterP C56_all); split; [exact: size_polyC_leq1|by []|] => p sp.
case: (boolP (p.[nth 0 (D 3) 1] == 5%:R)) => [/eqP e1|/eqP n1]; last by exists 1%N => // -[/esym].
case: (boolP (p.[nth 0 (D 3) 2] == 5%:R)) => [/eqP e2|/eqP n2]; last by exists 2%N => // -[/esym].
exists 0%N => // -[e0 _].
have : p - 5%:R%:P = 0.
  apply/eqP; apply: contraT => nz.
  have := @max_poly_roots _ _ [:: nth 0 (D 3) 1; nth 0 (D 3) 2] nz.
  rewrite /= !rootE !hornerE e1 e2 subrr eqxx => /(_ isT isT) h.
  have := leq_trans h (leq_trans (size_add _ _) _); rewrite size_opp => /(_ 2%N); rewrite ltnn => -> //.
  by rewrite geq_max sp /=; apply: leq_trans (size_polyC_leq1 _) _.
move/eqP; rewrite subr_eq0 => /eqP ep; move: e0; rewrite ep hornerC => /eqP; apply/negP; by vm_compute.
Qed.
(** A strategy that C56_strategy bounds: the vector has five errors, and the challenge -1 hides them. *)
Definition C56_far : seq F := [seq 5%:R + i | i <-
  let x := C38_root 8 in let y := x * x in [:: 1; 1 + x^-1; 1 + y^-1; 0; 0; x^-1 - 1; y^-1 - 1; 0]].
Lemma C56_lines : all (fun c => all (fun d : F =>
  (size (filter (fun i : nat => nth 0%R C56_far i == c + d * C38_root 8 ^+ i)%R (iota 0 8)) + 2 < 2 ^ 3)%N)
  [seq i%:R | i <- iota 0 17]) [seq i%:R | i <- iota 0 17].
Proof. by vm_compute. Qed.
Lemma C56_far_same : all (fun i => nth 0 (folded_many C38_root 3 [:: - 1] C56_far) (i %% 4) == peval [:: 5%:R] (C38_root 4 ^+ (i %% 4))) (iota 0 8).
Proof. by vm_compute. Qed.
Example C56_strategy_witness :
  (forall p : {poly F}, (size p <= 2)%N -> (size (agreement (D 3) C56_far p) + 2 < 2 ^ 3)%N) /\
  (forall i, i \in iota 0 8 ->
     consistent_at C38_root (Poly [:: 5%:R]) 3 [:: 1]%N [:: - 1] (strategy_vectors (fun _ => C56_far) [:: 1]%N [::] [:: - 1]) i).
Proof.
split=> [p sp|i hi]; last by split; [rewrite -pevalE; apply/eqP; exact: (allP C56_far_same i hi)|].
have := allP (allP C56_lines _ (C56_els p`_0)) _ (C56_els p`_1); congr (_ + _ < _)%N; congr size.
rewrite /agreement size_dom; apply: eq_in_filter => i; rewrite mem_iota add0n => /andP[_ hi].
rewrite (horner_coef_wide _ sp) big_ord_recl big_ord_recl big_ord0 addr0 expr0 mulr1 expr1.
by rewrite nth_dom.
Qed.
(** The run of C49_witness meets the hypotheses of C56_accepted, with E = 0. *)
Example C56_accepted_witness : [/\ roots_ok C38_root (2 + 1), (2%:R : F) != 0, (sumn [:: 2; 1] <= 2 + 1)%N,
  (3 * 0 + 2 * 2 ^ 2 <= 2 ^ (2 + 1))%N & exists pr tr', [/\ C38_run 4 = Some (pr, tr'),
  round_commitments C38_leaf C38_node (2 + 1) [:: 2; 1]%N [:: C49_w0; C49_w1] (pf_roots pr),
  (forall k c, om_get C38_commitments k = Some c -> exists2 vs, om_get C49_batches k = Some vs & commits_to C38_leaf C38_node (2 + 1) 2 vs c) &
  verify_eval C38_leaf C38_node C38_absorb C38_challenge C38_grind_verify 17 C38_params pr C38_commitments (5 : F) C38_ids C38_U C38_V 4 = Some (true, tr')]].
Proof.
split; [exact: C38_roots|by vm_compute|by []|by []|].
case: C49_witness => pr [tr' [h1 h2 h3 h4 _]].
exact (ex_intro _ pr (ex_intro _ tr' (And4 h1 h2 h3 h4))).
Qed.
End Witness.
Print Assumptions C56_few.
Print Assumptions C56_proximity.
Print Assumptions C56_accepted.
Print Assumptions C56_strategy.
