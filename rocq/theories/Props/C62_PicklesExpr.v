(** C62: evaluation of expressions, permutation and generic scalars, chunked evaluations in pickles. *)
From mathcomp Require Import all_ssreflect all_algebra.
From Verif.Model Require Import Base OrderedMap Domain KimchiPedersen PicklesExpr.
From Verif.Spec Require Import KimchiSpec PicklesExprSpec.
From Verif.Proofs Require Import NatTac LinearProofs DomainProofs KimchiProofs PicklesExprProofs.
From Verif.Props Require Import C05_R1csToQap.
Set Implicit Arguments.
Unset Strict Implicit.
Unset Printing Implicit Defensive.
Import GRing.Theory.
Local Open Scope ring_scope.

(** The tokens of an expression evaluate to its value, with subexpressions shared in the cache. *)
Theorem C62_evaluate (F : fieldType) (n : nat) (omega pt : F) (curr next : evaluations F) (c : constants F) (f : nat -> expr F) (e : expr F) :
  n.-primitive_root omega -> (4 <= n)%N -> pt ^+ n != 1 -> consistent f e -> in_range curr next c e ->
  polish_evaluate n omega pt [:: curr; next] c (postfix [::] e).1 = Some (value n omega pt curr next c e).
Proof. by move=> hw hn hp h1 h2; rewrite /polish_evaluate (postfixE hw hn hp h1 h2 [::] [::]). Qed.

(** Which token lists evaluate does not depend on the values. *)
Theorem C62_defined (F : fieldType) (n : nat) (omega pt : F) (curr next : evaluations F) (c : constants F) (toks : seq (token F)) :
  isSome (polish_evaluate n omega pt [:: curr; next] c toks) = leaves_one_value curr next c toks.
Proof.
rewrite /polish_evaluate /leaves_one_value -(countE n omega pt curr next c toks ([::], [::])).
by case: (ofold _ _ _) => [[[|x [|y s]] k]|].
Qed.

(** The previous challenges: the chunks are the values of the low and the high part of the challenge polynomial. *)
Theorem C62_prev_chal (F : fieldType) (m : nat) (chals : seq F) (x : F) :
  let b := challenge_poly chals in let l := (2 ^ size chals)%N in
  prev_chal_eval m chals x (x ^+ m) =
  if m == l then [:: b.[x]] else [:: \sum_(j < l | (j < m)%N) b`_j * x ^+ j; \sum_(j < l | (m <= j)%N) b`_j * x ^+ (j - m)].
Proof.
move=> b l; rewrite /prev_chal_eval b_polyE b_poly_coefficientsE -/b -/l; case: eqP => // _.
set diff := (foldl _ _ _).1.
have -> : diff = \sum_(j < l | (m <= j)%N) b`_j * x ^+ (j - m).
  have gen k (acc y : F) i : (foldl (fun (st : F * F) j => (st.1 + st.2 * nth 0 (coefs chals) j, st.2 * x)) (acc, y) (iota i k)).1 =
      acc + \sum_(0 <= j < k) y * (b`_(i + j) * x ^+ j).
    elim: k acc y i => [|k ih] acc y i; first by rewrite big_geq // addr0.
    rewrite /= ih big_nat_recl // addn0 expr0 mulr1 coefs_nth addrA; congr (_ + _).
    by apply: eq_bigr => j _; rewrite addSnnS exprS -!mulrA; congr (_ * _); rewrite mulrCA.
  rewrite /diff gen add0r; under eq_bigr do rewrite mul1r.
  case: (leqP m l) => hm.
    rewrite -(big_mkord (fun j => (m <= j)%N) (fun j => b`_j * x ^+ (j - m))) (big_cat_nat _ _ _ (leq0n m) hm) /=.
    have -> : \sum_(0 <= j < m | (m <= j)%N) b`_j * x ^+ (j - m) = 0.
      by rewrite big_nat_cond big_pred0 // => j; rewrite leq0n /= [(m <= j)%N]leqNgt andbN.
    rewrite add0r; transitivity (\sum_(0 + m <= j < l | (m <= j)%N) b`_j * x ^+ (j - m)); last by rewrite add0n.
    by rewrite big_addn; apply: eq_big => [j|j _]; rewrite ?leq_addl // addnK addnC.
  rewrite (eqP (ltnW hm)) big_geq // big_pred0 // => j; apply: negbTE; rewrite -ltnNge; exact: leq_trans (ltn_ord j) (ltnW hm).
congr [:: _; _].
have -> : b.[x] = \sum_(j < l) b`_j * x ^+ j.
  by have := pevalE (coefs chals) x; rewrite Poly_coefs -/b => <-; rewrite pevalS size_coefs; apply: eq_bigr => j _; rewrite coefs_nth mulrC.
rewrite (bigID (fun j : 'I_l => (j < m)%N)) /= -[RHS]addr0 -addrA; congr (_ + _).
apply/eqP; rewrite subr_eq0 mulr_suml; apply/eqP; apply: eq_big => [j|j h]; first by rewrite -leqNgt.
by rewrite -mulrA -exprD subnK // leqNgt.
Qed.

(** The scalars of the permutation: with the coefficient of the last permutation polynomial they give the product over all 7 columns,
    as the aggregation of the permutation argument needs. *)
Theorem C62_permutation (F : fieldType) (curr next : evaluations F) (beta gamma zeta zkp iw p a0 a1 a2 sigma : F) (n : nat) (shift : seq F) :
  size (ev_w curr) = 15%N -> size (ev_s curr) = 6%N -> size shift = 7%N -> zeta != iw -> zeta != 1 ->
  exists ft scalar, ft_permutation [:: curr; next] beta gamma zeta zkp iw p n [:: a0; a1; a2] shift = Some ft /\
    perm_scalars [:: curr; next] beta gamma [:: a0; a1; a2] zkp = Some scalar /\
    let w i := nth 0 (ev_w curr) i in let s i := nth sigma (ev_s curr) i in
    ft - scalar * sigma =
      a0 * zkp * (ev_zc next * \prod_(i < 7) (w i + beta * s i + gamma) - ev_zc curr * \prod_(i < 7) (w i + beta * zeta * nth 0 shift i + gamma)) - p
      + a1 * (zeta ^+ n - 1) / (zeta - 1) * (1 - ev_zc curr) + a2 * (zeta ^+ n - 1) / (zeta - iw) * (1 - ev_zc curr).
Proof.
move=> hw hs hh n1 n2; rewrite /ft_permutation /perm_scalars /= (vgetE 0) hw /=; do 2 eexists; split; first by []; split; first by [].
rewrite hs hh !foldl_prod; have -> : minn 15 7 = 7%N by []; have -> : minn 15 6 = 6%N by [].
have -> : (7 - 1 = 6)%N by []; rewrite /= big_ord_recr /=.
set U := \prod_(i < 6) _; set V := \prod_(i < 7) _; rewrite [nth sigma _ 6]nth_default ?hs //.
have U1 : \prod_(i <- iota 0 6) (beta * nth 0 (ev_s curr) i + nth 0 (ev_w curr) i + gamma) = U.
  rewrite -[iota 0 6]/(index_iota 0 6) big_mkord; apply: eq_bigr => i _; rewrite [nth sigma _ i](set_nth_default 0) ?hs //; congr (_ + gamma); exact: addrC.
have U2 : \prod_(i <- iota 0 6) (gamma + beta * nth 0 (ev_s curr) i + nth 0 (ev_w curr) i) = U.
  by rewrite -U1; apply: eq_bigr => i _; rewrite -addrA addrC.
have V1 : \prod_(i <- iota 0 7) (gamma + beta * zeta * nth 0 shift i + nth 0 (ev_w curr) i) = V.
  by rewrite -[iota 0 7]/(index_iota 0 7) big_mkord; apply: eq_bigr => i _; rewrite addrC [gamma + _]addrC addrA.
rewrite U1 U2 V1; exact: permutation_ring.
Qed.

(** The scalars of the generic gate, as weights of the 10 coefficient columns *)
Theorem C62_generic (F : fieldType) (w coef : seq F) (a0 a1 selector : F) : (6 <= size w)%N ->
  exists scalars, gnrc_scalars [:: a0; a1] w selector = Some scalars /\ size scalars = 10%N /\
    let W (i : nat) := nth 0 w i in let C (i : nat) := nth 0 coef i in
    \sum_(i < 10) nth 0 scalars i * C i =
      selector * (a0 * (C 0%N * W 0%N + C 1%N * W 1%N + C 2%N * W 2%N + C 3%N * (W 0%N * W 1%N) + C 4%N) + a1 * (C 5%N * W 3%N + C 6%N * W 4%N + C 7%N * W 5%N + C 8%N * (W 3%N * W 4%N) + C 9%N)).
Proof.
case: w => [|w0 [|w1 [|w2 [|w3 [|w4 [|w5 w]]]]]] // _; eexists; split; first by []; split=> // W C.
by rewrite !big_ord_recl big_ord0 /bump /= /W /=; exact: generic_ring.
Qed.

(** The evaluations of the chunks combine to the evaluation of the polynomial, without lookups. *)
Theorem C62_combine (F : fieldType) (m : nat) (x : F) (w s : seq (seq F)) (z g p t a r : seq F) (b : bool) : (0 < m)%N ->
  let chunks (f : seq F) := [seq peval u x | u <- blocks m f] in
  combine (Evaluations (map chunks w) (chunks z) (map chunks s) [::] a t r b false (chunks g) (chunks p)) (x ^+ m) =
  Some (Evaluations [seq peval f x | f <- w] (peval z x) [seq peval f x | f <- s] [::] 0 0 0 false false (peval g x) (peval p x)).
Proof.
move=> hm chunks; have ch f : peval (chunks f) (x ^+ m) = peval f x by exact: peval_blocks.
clearbody chunks.
by rewrite /combine /= !ch -!map_comp if_same; congr (Some (Evaluations _ _ _ _ _ _ _ _ _ _ _)); apply: eq_map => f /=; rewrite ch.
Qed.

(** With lookups, [combine] writes to an empty vector. *)
Theorem C62_combine_refuted (F : fieldType) (e : evaluations (seq F)) (pt : F) : ev_lookup_used e -> ev_sorted e <> [::] -> combine e pt = None.
Proof. by rewrite /combine => ->; case: (ev_sorted e). Qed.

(** With a public input, the evaluations of the public polynomial are written to an empty vector. *)
Theorem C62_public_refuted (F : fieldType) (pub : seq F) (omega zeta : F) (n : nat) :
  isSome (public_evaluations pub omega zeta n) = (pub == [::]).
Proof. by case: pub. Qed.

(** A cell of a column without evaluation counts as 0. *)
Theorem C62_missing_column (F : fieldType) (n : nat) (omega pt x : F) (curr next : evaluations F) (c : constants F) (i : nat) :
  polish_evaluate n omega pt [:: curr; next] c [:: TCell F 0 (CCoefficient i); TLiteral x; TAdd F] = Some x.
Proof. by rewrite /polish_evaluate /= add0r. Qed.

(** Concrete cases over F_17 with the domain of the powers of 4 *)
Definition C62_e (k : nat) : evaluations C05_F := Evaluations [seq (i + k)%:R | i <- iota 1 15] 3%:R [seq (i * k)%:R | i <- iota 1 6] [:: 5%:R] 6%:R 7%:R 8%:R true true 2%:R 9%:R.
Definition C62_c : constants C05_F := Constants 2%:R 3%:R 5%:R 7%:R 11%:R [:: [:: 1; 2%:R]; [:: 3%:R; 4%:R]].
(** (w_1 + alpha)^2 shared: s * s + mds_(1,0) L_(-1) V *)
Definition C62_f (id : nat) : expr C05_F := ESquare (EAdd (ECell _ true (CWitness 1)) (EAlpha _)).
Definition C62_x : expr C05_F :=
  EAdd (EMul (ECache 7 (C62_f 7)) (ECache 7 (C62_f 7))) (EMul (EMds _ 1 0) (EMul (ELagrange _ (Negz 0)) (EPow (EVanishes _) 2))).
Example C62_evaluate_witness :
  [/\ 4.-primitive_root (4%:R : C05_F), (2%:R : C05_F) ^+ 4 != 1, consistent C62_f C62_x, in_range (C62_e 0) (C62_e 1) C62_c C62_x &&
      has (fun t : token C05_F => if t is TLoad 0 then true else false) (postfix [::] C62_x).1 &
      polish_evaluate 4 (4%:R : C05_F) 2%:R [:: C62_e 0; C62_e 1] C62_c (postfix [::] C62_x).1 = Some 9%:R].
Proof.
split; [|by vm_compute|by []|by vm_compute|by apply/eqP; vm_compute].
by apply/andP; split=> //; apply/forallP => -[i hi]; rewrite unity_rootE /=; do 4 (case: i hi => [|i] hi; first vm_decide).
Qed.
Example C62_defined_witness : leaves_one_value (C62_e 0) (C62_e 1) C62_c (postfix [::] C62_x).1 /\
  ~~ leaves_one_value (C62_e 0) (C62_e 1) C62_c [:: TAlpha _; TAdd _].
Proof. by vm_compute. Qed.
Example C62_prev_chal_witness : prev_chal_eval 2 [:: 2%:R; 3%:R : C05_F] 5%:R (5%:R ^+ 2) = [:: 16%:R; 15%:R].
Proof. by apply/eqP; vm_compute. Qed.
Example C62_permutation_witness : [/\ size (ev_w (C62_e 0)) = 15%N, size (ev_s (C62_e 0)) = 6%N,
  isSome (ft_permutation [:: C62_e 0; C62_e 1] 2%:R 3%:R 5%:R 6%:R 7%:R 0 4 [:: 1; 2%:R; 4%:R] [:: 1; 2%:R; 3%:R; 4%:R; 5%:R; 6%:R; 7%:R]) & (5%:R : C05_F) != 7%:R].
Proof. by vm_compute. Qed.
Example C62_generic_witness : gnrc_scalars [:: 2%:R; 3%:R : C05_F] [:: 1; 2%:R; 3%:R; 4%:R; 5%:R; 6%:R] 1 =
  Some [:: 2%:R; 4%:R; 6%:R; 4%:R; 2%:R; 12%:R; 15%:R; 1; 9%:R; 3%:R].
Proof. by apply/eqP; vm_compute. Qed.
Example C62_combine_witness : (fun f : seq C05_F => peval [seq peval u 3%:R | u <- blocks 2 f] (3%:R ^+ 2)) [:: 1; 2%:R; 5%:R; 7%:R; 4%:R] =
  peval [:: 1; 2%:R; 5%:R; 7%:R; 4%:R] 3%:R /\ ev_lookup_used (C62_e 0) /\ ev_sorted (C62_e 0) <> [::].
Proof. by split; [apply/eqP; vm_compute|]. Qed.

Print Assumptions C62_evaluate.
Print Assumptions C62_defined.
Print Assumptions C62_prev_chal.
Print Assumptions C62_permutation.
Print Assumptions C62_generic.
Print Assumptions C62_combine.
Print Assumptions C62_combine_refuted.
Print Assumptions C62_public_refuted.
Print Assumptions C62_missing_column.
