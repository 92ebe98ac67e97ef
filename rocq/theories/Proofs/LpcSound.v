(** Wrong claimed values: few theta. *)
From mathcomp Require Import all_ssreflect all_algebra.
From Verif.Model Require Import Base OrderedMap PolysEvaluator Fri Lpc.
From Verif.Spec Require Import LpcSpec.
From Verif.Proofs Require Import NatTac FieldTac PermProofs KzgProofs DomainProofs LpcProofs.
Set Implicit Arguments.
Unset Strict Implicit.
Unset Printing Implicit Defensive.
Import GRing.Theory.
Local Open Scope ring_scope.

Section Sound.
Variable F : fieldType.
Add Field Ff_lpcs : (@ffield_theory F).
Implicit Types (theta x c : F) (os : seq (claim F)).
Variables (p : nat * nat -> {poly F}) (d : nat) (C : seq F).
Hypothesis uC : uniq C.
Hypothesis hd : (0 < d)%N.

Definition vanish : {poly F} := \prod_(c <- C) ('X - c%:P).
Definition cofactor c : {poly F} := \prod_(c' <- C | c' != c) ('X - c'%:P).
Lemma cofactorE c : c \in C -> vanish = ('X - c%:P) * cofactor c.
Proof. by move=> hc; rewrite /vanish (bigD1_seq c). Qed.
Lemma vanish_ne x : x \notin C -> vanish.[x] != 0.
Proof.
move=> hx; rewrite /vanish horner_prod prodf_seq_neq0; apply/allP => c hc /=; rewrite hornerXsubC subr_eq0.
by apply: contraNneq hx => ->.
Qed.
Lemma cofactor_ne c : (cofactor c).[c] != 0.
Proof.
rewrite /cofactor horner_prod prodf_seq_neq0; apply/allP => c' hc' /=; apply/implyP => h; rewrite hornerXsubC subr_eq0.
by rewrite eq_sym.
Qed.
Lemma cofactor_other c c' : c' \in C -> c' != c -> (cofactor c).[c'] = 0.
Proof.
move=> h1 h2; apply/eqP; rewrite /cofactor horner_prod prodf_seq_eq0; apply/hasP; exists c' => //.
by rewrite h2 hornerXsubC subrr /=.
Qed.
Lemma size_vanish : size vanish = (size C).+1.
Proof. by rewrite /vanish size_prod_XsubC. Qed.
Lemma size_cofactor c : c \in C -> (size (cofactor c) <= size C)%N.
Proof.
move=> hc; rewrite /cofactor -big_filter size_prod_XsubC.
by rewrite size_filter -[size C](count_predC (fun c' => c' != c)) -addn1 leq_add2l -has_count; apply/hasP; exists c; rewrite //= negbK.
Qed.

Fixpoint numerators theta (e : nat) os : {poly F} :=
  if os is o :: os' then theta ^+ e *: ((p (cl_id o) - (cl_value o)%:P) * cofactor (cl_point o)) + numerators theta e.+1 os' else 0.
Definition errors c os : seq F := [seq if cl_point o == c then (p (cl_id o)).[c] - cl_value o else 0 | o <- os].

Lemma numeratorsE theta x os : x \notin C -> all (fun o => cl_point o \in C) os -> forall e,
  quotients theta (fun id => (p id).[x]) x e os * vanish.[x] = (numerators theta e os).[x].
Proof.
move=> hx; elim: os => [|o os ih] /= hos e; first by rewrite mul0r horner0.
case/andP: hos => h1 h2; rewrite mulrDl ih // hornerD hornerZ hornerM; congr (_ + _).
rewrite (cofactorE h1) hornerM hornerXsubC hornerD hornerN hornerC.
have hne : x - cl_point o != 0 by rewrite subr_eq0; apply: contraNneq hx => ->.
by rewrite !mulrA mulfVK.
Qed.
Lemma numerators_at theta c os : c \in C -> all (fun o => cl_point o \in C) os -> forall e,
  (numerators theta e os).[c] = theta ^+ e * (Poly (errors c os)).[theta] * (cofactor c).[c].
Proof.
move=> hc; elim: os => [|o os ih] /= hos e; first by rewrite !horner0 mulr0 mul0r.
case/andP: hos => h1 h2; rewrite hornerD ih // hornerZ hornerM hornerD hornerN hornerC horner_cons exprS.
have hring (a b k w : F) : a * (w * k) + theta * a * b * k = a * (b * theta + w) * k by fring F.
case: ifP => [/eqP ->|/negbT hne]; first exact: hring.
rewrite (cofactor_other (c := cl_point o) hc) 1?eq_sym // mulr0 mulr0 add0r addr0.
by move: (theta ^+ e) (Poly _).[theta] (cofactor c).[c] => a b k; rewrite -[b * theta]addr0 -(hring a b k) mul0r mulr0 add0r.
Qed.
Lemma size_numerators theta os : all (fun o => (cl_point o \in C) && (size (p (cl_id o)) <= d)%N) os -> forall e,
  (size (numerators theta e os) <= d + size C)%N.
Proof.
elim: os => [|o os ih] /= hos e; first by rewrite size_poly0.
case/andP: hos => /andP[h1 h2] h3; apply: leq_trans (size_add _ _) _; rewrite geq_max ih // andbT.
apply: leq_trans (size_scale_leq _ _) _; apply: leq_trans (size_mul_leq _ _) _.
have h4 : (size (p (cl_id o) - (cl_value o)%:P)%R <= d)%N.
  apply: leq_trans (size_add _ _) _; rewrite geq_max h2 size_opp /=; exact: leq_trans (size_polyC_leq1 _) hd.
apply: leq_trans (leq_pred _) _; apply: leq_add h4 (size_cofactor h1).
Qed.

Lemma few_thetas os (thetas : seq F) : all (fun o => (cl_point o \in C) && (size (p (cl_id o)) <= d)%N) os ->
  ~~ all (right p) os -> uniq thetas ->
  (forall theta, theta \in thetas -> exists (Q : {poly F}) (A : seq F), [/\ uniq A, {in A, forall x, x \notin C},
    (maxn (size Q) d + size C <= size A)%N & {in A, forall x, Q.[x] = quotients theta (fun id => (p id).[x]) x 0 os}]) ->
  (size thetas < size os)%N.
Proof.
move=> hos wrong ut hq.
have hosC : all (fun o => cl_point o \in C) os by apply: sub_all hos => o /andP[].
have [c hc hne] : exists2 c, c \in C & Poly (errors c os) != 0.
  elim: os wrong hosC {hq hos} => [|o os ih] //= h /andP[hc hosC]; move: h; rewrite negb_and.
  case: (boolP (right p o)) => /= hr; last first.
    move=> _; exists (cl_point o) => //; rewrite eqxx; apply/eqP => h0.
    have := congr1 (fun q : {poly F} => q`_0) h0; rewrite coef0 coef_cons /= => h1.
    by move: hr; rewrite /right -subr_eq0 h1 eqxx.
  case/ih=> // c hcC hne; exists c => //; apply: contraNneq hne => /= h0.
  apply/eqP/polyP => i; have := congr1 (fun q : {poly F} => q`_i.+1) h0; by rewrite !coef0 coef_cons.
apply: leq_trans (_ : size (Poly (errors c os)) <= _)%N; last by apply: leq_trans (size_Poly _) _; rewrite size_map.
apply: max_poly_roots => //; apply/allP => theta ht; case: (hq _ ht) => Q [A] [uA hA hsz hval].
have heq : Q * vanish = numerators theta 0 os.
  apply/eqP; rewrite -subr_eq0; apply/eqP; apply: (@roots_geq_poly_eq0 _ _ A) => //.
    apply/allP => x hx; rewrite /root hornerD hornerN hornerM hval // numeratorsE ?subrr //; exact: hA.
  apply: leq_trans hsz; apply: leq_trans (size_add _ _) _; rewrite size_opp geq_max; apply/andP; split.
    apply: leq_trans (size_mul_leq _ _) _; rewrite size_vanish addnS /= leq_add2r; exact: leq_maxl.
  by apply: leq_trans (size_numerators _ hos _) _; rewrite leq_add2r leq_maxr.
have := numerators_at theta hc hosC 0; rewrite -heq hornerM (cofactorE hc) hornerM hornerXsubC subrr mul0r mulr0 expr0 mul1r => /esym/eqP.
by rewrite mulf_eq0 (negbTE (cofactor_ne c)) orbF.
Qed.
End Sound.
