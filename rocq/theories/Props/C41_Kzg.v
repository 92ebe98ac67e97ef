(** C41: KZG opening completeness and exactness. *)
From mathcomp Require Import all_ssreflect all_algebra.
From Verif.Model Require Import Base Kzg.
From Verif.Spec Require Import GroupSpec.
From Verif.Proofs Require Import KzgProofs FieldTac.
Set Implicit Arguments.
Unset Strict Implicit.
Unset Printing Implicit Defensive.
Import GRing.Theory.
Local Open Scope ring_scope.

Section C41.
Variables (F : fieldType) (G1 G2 GT : lmodType F) (e : G1 -> G2 -> GT) (g1 : G1) (g2 : G2).

(** For every key of length [d] and trapdoor [alpha], every polynomial with at most [d] coefficients can be committed to and
    opened at every point, and the opening is accepted. *)
Theorem C41_complete d alpha (f : {poly F}) z : bilinear e -> (size f <= d)%N ->
  exists C pi, [/\ commit_with (kzg_commitment_key (kzg_setup g1 g2 d alpha)) f = Some C,
                   kzg_proof_eval (kzg_setup g1 g2 d alpha) f z = Some pi &
                   kzg_verify_eval e g1 g2 (kzg_setup g1 g2 d alpha) pi (KzgPublicKey C z f.[z])].
Proof.
move=> be h; have [pi e1 [q e2 e3]] := kzg_proof_evalE g1 g2 alpha z h.
exists (f.[alpha] *: g1), pi; split=> //; first exact: commit_withE.
rewrite (kzg_verify_evalE g1 g2 be) e2 scalerA [_ * q]mulrC e3 -scalerDl -[f.[z] - _]opprB subrr.
by rewrite scale0r (e0l be).
Qed.

(** A polynomial with more coefficients than the key has elements is refused. *)
Theorem C41_too_long d alpha (f : {poly F}) : (d < size f)%N ->
  commit_with (kzg_commitment_key (kzg_setup g1 g2 d alpha)) f = None.
Proof. by move=> h; rewrite /commit_with size_powers_of leqNgt h. Qed.

(** The commitment is the polynomial at the trapdoor. *)
Theorem C41_commit d alpha (f : {poly F}) C : commit_with (kzg_commitment_key (kzg_setup g1 g2 d alpha)) f = Some C ->
  C = f.[alpha] *: g1.
Proof.
case: (leqP (size f) d) => h; first by rewrite commit_withE // => -[].
by rewrite C41_too_long.
Qed.

(** For a commitment to [f] and a point other than the trapdoor, the accepted proofs of a value [v] are exactly the quotient
    (f(alpha) - v) / (alpha - z). *)
Theorem C41_exact d alpha (f : {poly F}) C z v pi : bilinear e -> nondegenerate_left e -> g2 != 0 -> z != alpha ->
  commit_with (kzg_commitment_key (kzg_setup g1 g2 d alpha)) f = Some C ->
  kzg_verify_eval e g1 g2 (kzg_setup g1 g2 d alpha) pi (KzgPublicKey C z v) <-> pi = ((f.[alpha] - v) / (alpha - z)) *: g1.
Proof.
move=> be nd h2 hz /C41_commit->; rewrite (kzg_verify_evalE g1 g2 be).
have nz : alpha - z != 0 by rewrite subr_eq0 eq_sym.
split=> [/eqP /(nd _ _ h2) h|->].
  apply: (scalerI nz); rewrite scalerA mulrC divfK //.
  by apply/eqP; rewrite -subr_eq0 -scaleNr opprB h.
by rewrite scalerA [_ * (_ / _)]mulrC divfK // -scalerDl -[v - _]opprB subrr scale0r (e0l be).
Qed.

(** In particular the honest proof opens the commitment to no other value. *)
Theorem C41_honest_unique d alpha (f : {poly F}) C z v pi : bilinear e -> nondegenerate_left e -> g1 != 0 -> g2 != 0 -> z != alpha ->
  commit_with (kzg_commitment_key (kzg_setup g1 g2 d alpha)) f = Some C ->
  kzg_proof_eval (kzg_setup g1 g2 d alpha) f z = Some pi ->
  kzg_verify_eval e g1 g2 (kzg_setup g1 g2 d alpha) pi (KzgPublicKey C z v) -> v = f.[z].
Proof.
move=> be nd h1 h2 hz hC hp /(C41_exact _ _ be nd h2 hz hC) h3.
have nz : alpha - z != 0 by rewrite subr_eq0 eq_sym.
have hs : (size f <= d)%N by case: leqP => // h; rewrite C41_too_long in hC.
have [pi' e1 [q e2 e3]] := kzg_proof_evalE g1 g2 alpha z hs; move: e1; rewrite hp => -[] e1.
have : (q - (f.[alpha] - v) / (alpha - z)) *: g1 = 0 by rewrite scalerBl -e2 -h3 e1 subrr.
move/eqP; rewrite scaler_eq0 (negPf h1) orbF subr_eq0 => /eqP hq.
by move: e3; rewrite hq divfK // => /addrI /oppr_inj.
Qed.
End C41.

(** In the group F_17 with pairing the product, key of length 3, trapdoor 5, f = X^2 + 1 at 2. *)
Example C41_witness : let F := [fieldType of 'F_17] in
  let e : F^o -> F^o -> F^o := fun x y => x * y in
  let f : {poly F} := Poly [:: 1; 0; 1] in
  [/\ bilinear e, nondegenerate_left e, (2 : F) != 5 & (size f <= 3)%N].
Proof.
move=> F e f; split=> //.
- split=> [x x' y|x y y'|c x y|c x y]; rewrite /e.
  + exact: mulrDl.
  + exact: mulrDr.
  + exact: esym (mulrA (c : F) x y).
  + exact: mulrCA (x : F) c y.
- by move=> x y hy /eqP; rewrite mulf_eq0 (negPf hy) orbF => /eqP.
- exact: size_Poly.
Qed.

Print Assumptions C41_complete.
Print Assumptions C41_too_long.
Print Assumptions C41_commit.
Print Assumptions C41_exact.
Print Assumptions C41_honest_unique.
