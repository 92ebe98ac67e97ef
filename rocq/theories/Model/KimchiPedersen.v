(** Model of commitments/polynomial/kimchi_pedersen.hpp: Pedersen commitments to polynomials, opened with an inner product
    argument. The group is an arbitrary module over the scalar field. Random draws are arguments. Default-constructed group and
    field elements are 0. [multiexp_with_mixed_addition] (crypto3-algebra) is the function [multiexp] of KnowledgeCommitment.v. *)
From mathcomp Require Import all_ssreflect all_algebra.
From Verif.Model Require Import Base OrderedMap Domain KnowledgeCommitment.
Set Implicit Arguments.
Unset Strict Implicit.
Unset Printing Implicit Defensive.
Import GRing.Theory.
Local Open Scope ring_scope.

Section KimchiPedersen.
Variables (F : fieldType) (V : lmodType F).

(** algebra::inner_product *)
Definition inner (a b : seq F) : F := foldr (fun p t => p.1 * p.2 + t) 0 (zip a b).

(** kimchi_pedersen.hpp:107-117 [poly_comm] *)
Record poly_comm (A : Type) := PolyComm { pc_unshifted : seq A; pc_shifted : A }.

(** kimchi_pedersen.hpp:119-159 [multi_scalar_mul]; the loop of 146-151 skips nothing, because [n] is the smallest size *)
Definition multi_scalar_mul (commits : seq (poly_comm V)) (elm : seq F) : poly_comm V :=
  if commits is c0 :: _ then
    let n := foldl (fun n c => if (size (pc_unshifted c) < n)%N then size (pc_unshifted c) else n) (size (pc_unshifted c0)) commits in
    PolyComm [seq multiexp [seq nth 0 (pc_unshifted c) i | c <- commits] elm | i <- iota 0 n]
      (multiexp [seq pc_shifted c | c <- commits] elm)
  else PolyComm [::] 0.

(** kimchi_pedersen.hpp:161-173 [chunk_commitment] *)
Definition chunk_commitment (c : poly_comm V) (zeta_n : F) : poly_comm V :=
  PolyComm [:: foldl (fun res p => zeta_n *: res + p) 0 (rev (pc_unshifted c))] (pc_shifted c).

(** kimchi_pedersen.hpp:175-204 [operator-]; the three loops are one over the indices below the larger size *)
Definition poly_comm_sub (c d : poly_comm V) : poly_comm V :=
  let n1 := size (pc_unshifted c) in let n2 := size (pc_unshifted d) in
  PolyComm [seq if (i < minn n1 n2)%N then nth 0 (pc_unshifted c) i - nth 0 (pc_unshifted d) i
                else if (i < n1)%N then nth 0 (pc_unshifted c) i else nth 0 (pc_unshifted d) i | i <- iota 0 (maxn n1 n2)]
    (if pc_shifted c == 0 then pc_shifted d else if pc_shifted d == 0 then pc_shifted c else pc_shifted c - pc_shifted d).

(** kimchi_pedersen.hpp:206-235 [operator+] *)
Definition poly_comm_add (c d : poly_comm V) : poly_comm V :=
  let n1 := size (pc_unshifted c) in let n2 := size (pc_unshifted d) in
  PolyComm [seq if (i < minn n1 n2)%N then nth 0 (pc_unshifted c) i + nth 0 (pc_unshifted d) i
                else if (i < n1)%N then nth 0 (pc_unshifted c) i else nth 0 (pc_unshifted d) i | i <- iota 0 (maxn n1 n2)]
    (if pc_shifted c == 0 then pc_shifted d else if pc_shifted d == 0 then pc_shifted c else pc_shifted c + pc_shifted d).

(** kimchi_pedersen.hpp:237-246 [scale] *)
Definition poly_comm_scale (c : poly_comm V) (x : F) : poly_comm V :=
  PolyComm [seq x *: a | a <- pc_unshifted c] (x *: pc_shifted c).

Section Scheme.
(** kimchi_pedersen.hpp:63-104 [params_type]: the bases [g] and [h]; [endo_r] is part of the function [squeeze] below, [endo_q] and
    the Lagrange bases are not used by the functions modelled here *)
Variables (g : seq V) (h : V).
Notation glen := (size g).

(** The segments of 344-355 and 411-413: the coefficients in blocks of the number of bases, the last one possibly shorter *)
Definition segments (s : seq F) : seq (seq F) := [seq take glen (drop (j * glen) s) | j <- iota 0 ((size s + glen.-1) %/ glen)].

(** kimchi_pedersen.hpp:334-383 [commitment]. [bound]: [None] is -1, other negative numbers are not modelled. [ws], [w]: the random
    elements of 370 and 375. The number of bases is not 0 (otherwise 346-351 do not terminate). *)
Definition commitment (poly : seq F) (bound : option nat) (ws : seq F) (w : F) : poly_comm V * poly_comm F :=
  let unshifted := [seq multiexp g c | c <- segments poly] in
  let shifted := if bound is Some b then
      let start := (b - b %% glen)%N in
      if (start < size poly)%N then multiexp (drop (glen - b %% glen) g) (drop start poly) else 0
    else 0 in
  (PolyComm [seq p.1 + p.2 *: h | p <- zip unshifted ws] (if shifted != 0 then shifted + w *: h else 0),
   PolyComm (take (size unshifted) ws) (if shifted != 0 then w else 0)).

(** kimchi_pedersen.hpp:253-263 [poly_type_single]; [bound] is a [size_t], -1 ([None]) is its largest value *)
Record poly_single := PolySingle { pl_coeffs : seq F; pl_bound : option nat; pl_commit : poly_comm F }.

(** The loop [a[i + offset] += segment[i] * scale] of 415-417, 424-426, 444-446 *)
Definition add_segment (a : seq F) (offset : nat) (segment : seq F) (scale : F) : seq F :=
  [seq nth 0 a i + (if (offset <= i)%N then nth 0 segment (i - offset) * scale else 0) | i <- iota 0 (size a)].

(** kimchi_pedersen.hpp:411-432 and 437-453: one step of the loops. The comparison of 422 with the largest [size_t] is false, so that
    both branches are the same without a bound. A segment beyond the end of the polynomial is empty here (undefined in the code). *)
Definition combine_step (polyscale : F) (p : poly_single) (st : seq F * F * F) (j : nat) : seq F * F * F :=
  let: (a, blinding, scale) := st in
  let segment := take glen (drop (j * glen) (pl_coeffs p)) in
  let a := add_segment a 0 segment scale in
  let blinding := blinding + nth 0 (pc_unshifted (pl_commit p)) j * scale in
  let scale := scale * polyscale in
  if (if pl_bound p is Some b then (b < j.+1 * glen)%N else false) then
    (add_segment a (glen - size segment) segment scale, blinding + pc_shifted (pl_commit p) * scale, scale * polyscale)
  else (a, blinding, scale).

(** kimchi_pedersen.hpp:403-457 without the padding *)
Definition combine (polyscale : F) (plms : seq poly_single) : seq F * F * F :=
  foldl (fun st p => foldl (combine_step polyscale p) st (iota 0 (size (pc_unshifted (pl_commit p))))) (nseq glen 0, 0, 1) plms.

(** kimchi_pedersen.hpp:398-399, 648-649: the first power of two that is not smaller *)
Fixpoint doublings (fuel p n : nat) : nat := if fuel is f.+1 then if (p < n)%N then (doublings f (2 * p) n).+1 else 0%N else 0%N.
Definition rounds : nat := doublings glen 1 glen.
Definition pad (A : Type) (d : A) (s : seq A) (n : nat) : seq A := s ++ nseq (n - size s) d.

(** kimchi_pedersen.hpp:460-469: entry [i] of the vector [b] *)
Definition b_entry (evalscale : F) (elm : seq F) (i : nat) : F :=
  (foldl (fun (st : F * F) e => (st.1 + st.2 * e ^+ i, st.2 * evalscale)) (0, 1) elm).1.

(** The sponge: absorbing a scalar (with shift_scalar) and drawing the point [u] (475-476), absorbing a point, and
    squeezing a challenge *)
Variables (S : Type) (absorb_fr : S -> F -> S) (draw_u : S -> V * S) (absorb_g : S -> V -> S) (squeeze : S -> F * S).

(** kimchi_pedersen.hpp:267-275 [proof_type] *)
Record ipa_proof := IpaProof { ip_lr : seq (V * V); ip_delta : V; ip_z1 : F; ip_z2 : F; ip_sg : V }.

(** kimchi_pedersen.hpp:485-535: the rounds, for vectors of 2^[k] entries; [rnd]: the random elements of 494-495. The result: the
    points l and r, the challenges, the last a, b and g, and the sponge. *)
Fixpoint ipa_rounds (u : V) (k : nat) (rnd : seq (F * F)) (gs : seq V) (a b : seq F) (s : S) : seq (V * V) * seq F * (F * F * V) * S :=
  if k is k'.+1 then
    let p := (2 ^ k')%N in
    let g_low := take p gs in let g_high := drop p gs in
    let a_low := take p a in let a_high := drop p a in
    let b_low := take p b in let b_high := drop p b in
    let rand := head (0, 0) rnd in
    let l := multiexp g_low a_high + rand.1 *: h + inner a_high b_low *: u in
    let r := multiexp g_high a_low + rand.2 *: h + inner a_low b_high *: u in
    let (x, s) := squeeze (absorb_g (absorb_g s l) r) in
    let: (lr, chals, last, s) := ipa_rounds u k' (behead rnd) [seq x *: q.1 + q.2 | q <- zip g_high g_low]
      [seq q.1 * x^-1 + q.2 | q <- zip a_high a_low] [seq q.1 * x + q.2 | q <- zip b_high b_low] s in
    ((l, r) :: lr, x :: chals, last, s)
  else ([::], [::], (nth 0 a 0, nth 0 b 0, nth 0 gs 0), s).

(** kimchi_pedersen.hpp:385-559 [proof_eval]; [d], [r_delta]: the random elements of 544-545 *)
Definition ipa_prove (plms : seq poly_single) (elm : seq F) (polyscale evalscale : F) (rnd : seq (F * F)) (d r_delta : F) (s : S) : ipa_proof * S :=
  let n := (2 ^ rounds)%N in
  let: (a, blinding, _) := combine polyscale plms in
  let a := pad 0 a n in
  let b := [seq b_entry evalscale elm i | i <- iota 0 n] in
  let (u, s) := draw_u (absorb_fr s (inner a b)) in
  let: (lr, chals, (a0, b0, g0), s) := ipa_rounds u rounds rnd (pad 0 g n) a b s in
  let r_prime := foldl (fun r q => r + (q.1.1 * q.2^-1 + q.1.2 * q.2)) blinding (zip (take (size chals) rnd) chals) in
  let delta := d *: (g0 + b0 *: u) + r_delta *: h in
  let (c, s) := squeeze (absorb_g s delta) in
  (IpaProof lr delta (a0 * c + d) (c * r_prime + r_delta) g0, s).

(** kimchi_pedersen.hpp:292-304 [evaluation_type] *)
Record evaluation := Evaluation { el_commit : poly_comm V; el_evaluations : seq (seq F); el_bound : option nat }.

(** kimchi_pedersen.hpp:561-609 [combined_inner_product]. [None]: reads outside of a vector (574, 590, 596) *)
Definition cip_step (points : seq F) (xi r : F) (st : F * F) (p : evaluation * option nat) : option (F * F) :=
  let rows := el_evaluations p.1 in
  oguard all (fun row => size (head [::] rows) <= size row)%N rows;
  let evals := [seq [seq nth 0 row i | row <- rows] | i <- iota 0 (size (head [::] rows))] in
  let st := foldl (fun (st : F * F) ev => (st.1 + st.2 * peval ev r, st.2 * xi)) st evals in
  if p.2 is Some bound then
    oguard ~~ (bound <= size evals * glen)%N || (0 < size evals)%N;
    let last_evals := if (bound <= size evals * glen)%N then last [::] evals else nseq (size points) 0 in
    oguard (size last_evals <= size points)%N;
    let shifted := [seq q.1 ^+ (glen - bound %% glen) * q.2 | q <- zip points last_evals] in
    Some (st.1 + st.2 * peval shifted r, st.2 * xi)
  else Some st.
Definition combined_inner_product (points : seq F) (xi r : F) (polys : seq (evaluation * option nat)) : option F :=
  omap fst (ofold (cip_step points xi r) (0, 1) polys).

(** kimchi_pedersen.hpp:611-627 [b_poly] *)
Definition b_poly (chals : seq F) (x : F) : F :=
  let k := size chals in
  foldl (fun res i => res * (1 + nth 0 chals i * x ^+ (2 ^ (k - 1 - i)))) 1 (iota 0 k).

(** kimchi_pedersen.hpp:629-643 [b_poly_coefficents]: the state of the loop is (k, pow, s); [int] does not overflow *)
Definition coefficients_step (chals : seq F) (st : nat * nat * seq F) (i : nat) : nat * nat * seq F :=
  let: (k, pow, s) := st in
  let k' := if i == pow then k.+1 else k in
  let pow' := if i == pow then (2 * pow)%N else pow in
  (k', pow', set_nth 0 s i (nth 0 s (i - pow' %/ 2) * nth 0 chals (size chals - 1 - (k' - 1)))).
Definition b_poly_coefficients (chals : seq F) : seq F :=
  let s_len := (2 ^ size chals)%N in
  (foldl (coefficients_step chals) (0%N, 1%N, nseq s_len 1) (iota 1 (s_len - 1))).2.

(** kimchi_pedersen.hpp:306-329 [batchproof_type] *)
Record batch := Batch { bt_sponge : S; bt_evaluation : seq evaluation; bt_points : seq F; bt_xi : F; bt_r : F; bt_opening : ipa_proof }.

(** kimchi_pedersen.hpp:277-289 [challenges] *)
Fixpoint ipa_challenges (lr : seq (V * V)) (s : S) : seq F * S :=
  if lr is q :: lr' then
    let (x, s) := squeeze (absorb_g (absorb_g s q.1) q.2) in
    let (xs, s) := ipa_challenges lr' s in (x :: xs, s)
  else ([::], s).

(** kimchi_pedersen.hpp:726-741: the commitments that enter the check, in the order of the powers of xi *)
Definition checked_commitments (evs : seq evaluation) : seq V :=
  flatten [seq pc_unshifted (el_commit ev) ++
    (if (el_bound ev != None) && (pc_shifted (el_commit ev) != 0) then [:: pc_shifted (el_commit ev)] else [::]) | ev <- evs].

(** kimchi_pedersen.hpp:663-750: one batch; the state is (points, scalars, rand_base_i, sg_rand_base_i). [None]: 710 writes outside
    of the vector, or a read of [combined_inner_product] outside of a vector *)
Definition verify_step (rand_base sg_rand_base : F) (st : seq V * seq F * F * F) (b : batch) : option (seq V * seq F * F * F) :=
  let: (points, scalars, rb, sb) := st in
  let es := [seq (ev, if pc_shifted (el_commit ev) != 0 then el_bound ev else None) | ev <- bt_evaluation b] in
  olet cip <- combined_inner_product (bt_points b) (bt_xi b) (bt_r b) es;
  let (u, s) := draw_u (absorb_fr (bt_sponge b) cip) in
  let o := bt_opening b in
  let (chals, s) := ipa_challenges (ip_lr o) s in
  let (c, s) := squeeze (absorb_g s (ip_delta o)) in
  let b0 := (foldl (fun (st : F * F) e => (st.1 + st.2 * b_poly chals e, st.2 * bt_r b)) (0, 1) (bt_points b)).1 in
  let co := b_poly_coefficients chals in
  let points := rcons points (ip_sg o) in
  let scalars := rcons scalars (- rb * ip_z1 o - sb) in
  oguard (size co < size scalars)%N;
  let scalars := [seq nth 0 scalars i + (if (0 < i <= size co)%N then nth 0 co i.-1 * sb else 0) | i <- iota 0 (size scalars)] in
  let scalars := set_nth 0 scalars 0 (nth 0 scalars 0 - rb * ip_z2 o) in
  let comms := checked_commitments (bt_evaluation b) in
  Some (points ++ u :: flatten [seq [:: q.1; q.2] | q <- ip_lr o] ++ comms ++ [:: u; ip_delta o],
    scalars ++ - rb * ip_z1 o * b0 :: flatten [seq [:: c * rb * x^-1; c * rb * x] | x <- chals] ++
      [seq c * rb * bt_xi b ^+ i | i <- iota 0 (size comms)] ++ [:: c * rb * cip; rb],
    rb * rand_base, sb * sg_rand_base).

(** kimchi_pedersen.hpp:645-755 [verify_eval]; [rand_base], [sg_rand_base]: the random elements of 658-659 *)
Definition ipa_verify (rand_base sg_rand_base : F) (batches : seq batch) : option bool :=
  let n := (2 ^ rounds)%N in
  olet st <- ofold (verify_step rand_base sg_rand_base) (pad 0 (h :: g) n.+1, nseq n.+1 0, 1, 1) batches;
  Some (multiexp st.1.1.1 st.1.1.2 == 0).
End Scheme.
End KimchiPedersen.
