(** Vocabulary of the property of the Kimchi polynomial commitment. *)
From mathcomp Require Import all_ssreflect all_algebra.
From Verif.Model Require Import Base OrderedMap KimchiPedersen.
Set Implicit Arguments.
Unset Strict Implicit.
Unset Printing Implicit Defensive.
Import GRing.Theory.
Local Open Scope ring_scope.

Section KimchiSpec.
Variables (F : fieldType) (V : lmodType F).
(** The polynomial of the challenges: the product of 1 + c_i X^(2^(k-1-i)) *)
Fixpoint challenge_poly (chals : seq F) : {poly F} :=
  if chals is c :: cs then (1 + c *: 'X^(2 ^ size cs)) * challenge_poly cs else 1.
(** The sum of the t^i x_i *)
Definition power_sum (t : F) (xs : seq V) : V := \sum_(i < size xs) t ^+ i *: nth 0 xs i.

(** The equation of the opening: with the commitments [comms], scaled by powers of [xi], the combined value [v], the points [u] and
    [h], the points l and r of the rounds with the challenges [chals], and the last challenge [c], it says
    c (P + v u + sum (l / x + x r)) + delta = z1 (sg + b0 u) + z2 h; this is the difference of the sides. *)
Definition opening_defect (h u : V) (xi : F) (comms : seq V) (v : F) (lr : seq (V * V)) (chals : seq F) (c : F)
    (delta sg : V) (z1 z2 b0 : F) : V :=
  c *: (power_sum xi comms + v *: u + \sum_(q <- zip lr chals) (q.2^-1 *: q.1.1 + q.2 *: q.1.2)) + delta
  - (z1 *: (sg + b0 *: u) + z2 *: h).
(** The equation of the last base: sg is the combination of the bases by the coefficients of the polynomial of the challenges. *)
Definition base_defect (g : seq V) (chals : seq F) (sg : V) : V := \sum_(i < size g) (challenge_poly chals)`_i *: nth 0 g i - sg.
End KimchiSpec.

Section Verifier.
Variables (F : fieldType) (V : lmodType F) (g : seq V) (h : V).
Variables (S : Type) (absorb_fr : S -> F -> S) (draw_u : S -> V * S) (absorb_g : S -> V -> S) (squeeze : S -> F * S).
(** What the verifier draws from the sponge for a batch, after the combined value: the point u, the challenges of the rounds and the
    last challenge. [None]: the evaluations have the wrong shape. *)
Definition draws (b : batch V S) : option (F * V * seq F * F) :=
  olet v <- combined_inner_product g (bt_points b) (bt_xi b) (bt_r b)
    [seq (ev, if pc_shifted (el_commit ev) != 0 then el_bound ev else None) | ev <- bt_evaluation b];
  let us := draw_u (absorb_fr (bt_sponge b) v) in
  let cs := ipa_challenges absorb_g squeeze (ip_lr (bt_opening b)) us.2 in
  Some (v, us.1, cs.1, (squeeze (absorb_g cs.2 (ip_delta (bt_opening b)))).1).
(** The two equations of a batch *)
Definition batch_opening (b : batch V S) (d : F * V * seq F * F) : V :=
  let: (v, u, chals, c) := d in let o := bt_opening b in
  opening_defect h u (bt_xi b) (checked_commitments (bt_evaluation b)) v (ip_lr o) chals c (ip_delta o) (ip_sg o) (ip_z1 o) (ip_z2 o)
    (\sum_(j < size (bt_points b)) bt_r b ^+ j * (challenge_poly chals).[nth 0 (bt_points b) j]).
Definition batch_base (b : batch V S) (d : F * V * seq F * F) : V := base_defect g d.1.2 (ip_sg (bt_opening b)).

(** An honest batch: polynomials, each given by its coefficients, one blinding element for each of its segments, and possibly
    a further one, for a commitment with a degree bound that is its number of coefficients; their commitments; the values of all
    their segments at the points; and a proof by the prover, which starts with the sponge of the verifier. *)
Definition honest_input : Type := (seq F * seq F * option F)%type.
Definition honest_bound (p : honest_input) : option nat := if p.2 is Some _ then Some (size p.1.1) else None.
Definition honest_commitment (p : honest_input) : poly_comm V * poly_comm F := commitment g h p.1.1 (honest_bound p) p.1.2 (odflt 0 p.2).
Definition honest_polys (polys : seq honest_input) : seq (poly_single F) :=
  [seq PolySingle p.1.1 (honest_bound p) (honest_commitment p).2 | p <- polys].
Definition honest_evaluations (points : seq F) (polys : seq honest_input) : seq (evaluation V) :=
  [seq Evaluation (honest_commitment p).1 [seq [seq (Poly seg).[x] | seg <- segments g p.1.1] | x <- points] (honest_bound p) | p <- polys].
(** A bounded polynomial whose last segment is not full has a shifted commitment other than 0. *)
Definition honest_shifted (p : honest_input) : bool :=
  [|| p.2 == None, (size p.1.1 %% size g == 0)%N | pc_shifted (honest_commitment p).1 != 0].
Definition honest_batch (b : batch V S) : Prop :=
  exists (polys : seq honest_input) (points : seq F) (xi r : F) (rnd : seq (F * F)) (d r_delta : F) (s : S),
  [/\ all (fun p => (size p.1.2 == size (segments g p.1.1)) && honest_shifted p) polys, points != [::], size rnd = rounds g &
      b = Batch s (honest_evaluations points polys) points xi r
        (ipa_prove g h absorb_fr draw_u absorb_g squeeze (honest_polys polys) points xi r rnd d r_delta s).1].
End Verifier.
