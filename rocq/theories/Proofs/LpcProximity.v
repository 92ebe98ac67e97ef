(** Batching with theta keeps the distance: proofs for C58. *)
From mathcomp Require Import all_ssreflect all_algebra.
From Verif.Model Require Import Base OrderedMap Domain Fri Lpc.
From Verif.Spec Require Import FriSpec ProximitySpec LpcSpec LpcProximitySpec.
From Verif.Proofs Require Import NatTac FieldTac DomainProofs FriFold Proximity ProximityChain.
Set Implicit Arguments.
Unset Strict Implicit.
Unset Printing Implicit Defensive.
Import GRing.Theory.
Local Open Scope ring_scope.

Section LpcProximity.
Variable F : fieldType.
Variable D : seq F.
Hypothesis uD : uniq D.
Variable vec : nat * nat -> seq F.
Implicit Types (cls : seq (claim F)) (o : claim F).
Let o0 : claim F := Claim 0 (0, 0)%N 0.

Lemma In_nth cls o : List.In o cls -> exists2 k, (k < size cls)%N & nth o0 cls k = o.
Proof. by elim: cls => //= a l ih [->|/ih[k h1 h2]]; [exists 0%N|exists k.+1]. Qed.
Lemma nth_In cls k : (k < size cls)%N -> List.In (nth o0 cls k) cls.
Proof. by elim: cls k => //= a l ih [|k] h; [left|right; apply: ih]. Qed.

(** One claim: the quotient is a polynomial exactly if the vector is one with the claimed value. *)
Definition quot o i : F := (nth 0 (vec (cl_id o)) i - cl_value o) / (nth 0 D i - cl_point o).
Lemma quotientsE theta i cls : forall e,
  quotients theta (fun id => nth 0 (vec id) i) (nth 0 D i) e cls = \sum_(k < size cls) theta ^+ (e + k) * quot (nth o0 cls k) i.
Proof.
elim: cls => [|o cls ih] e /=; first by rewrite big_ord0.
rewrite big_ord_recl addn0 ih; congr (_ + _); apply: eq_bigr => k _; by rewrite /= /bump leq0n add1n addnS.
Qed.
Definition shifted o (c : {poly F}) : {poly F} := (cl_value o)%:P + ('X - (cl_point o)%:P) * c.
Lemma size_shifted o (c : {poly F}) b : (size c <= b)%N -> (size (shifted o c) <= b.+1)%N.
Proof.
move=> h; apply: leq_trans (size_add _ _) _; rewrite geq_max (leq_trans (size_polyC_leq1 _)) //=.
by apply: leq_trans (size_mul_leq _ _) _; rewrite size_XsubC /= ltnS.
Qed.
Lemma shifted_point o (c : {poly F}) : (shifted o c).[cl_point o] = cl_value o.
Proof. by rewrite !hornerE subrr mul0r addr0. Qed.
Lemma shifted_at o (c : {poly F}) i : cl_point o \notin D -> (i < size D)%N -> quot o i = c.[nth 0 D i] -> nth 0 (vec (cl_id o)) i = (shifted o c).[nth 0 D i].
Proof.
move=> hp hi hq; rewrite /shifted hornerD hornerM hornerC hornerXsubC -hq /quot.
rewrite mulrC divfK; first by rewrite addrC subrK.
by rewrite subr_eq0; apply: contraNneq hp => <-; exact: mem_nth.
Qed.

(** Polynomials for the claims one by one are polynomials for the vectors. *)
Lemma by_id b cls (T : seq nat) : uniq T -> all (fun i => i < size D)%N T -> (b < size T)%N ->
  (forall o, List.In o cls -> exists p : {poly F}, [/\ (size p <= b.+1)%N, p.[cl_point o] = cl_value o &
    forall i, i \in T -> nth 0 (vec (cl_id o)) i = p.[nth 0 D i]]) ->
  exists p, explains D vec b cls T p.
Proof.
move=> uT hT sT; elim: cls => [|o cls ih] h; first by exists (fun _ => 0).
have [|p hp] := ih; first by move=> o' ho; apply: h; right.
have [q [q1 q2 q3]] := h o (or_introl erefl).
exists (fun id => if id == cl_id o then q else p id) => o' /= [<-|ho]; first by rewrite eqxx.
have [p1 p2 p3] := hp o' ho; case: eqP => [e|_] //.
have eqp : p (cl_id o') = q.
  apply: (@poly_eq_on _ b.+1 _ _ [seq nth 0 D i | i <- T]) => //; rewrite ?size_map //.
    rewrite map_inj_in_uniq // => i j hi hj /eqP; rewrite nth_uniq ?(allP hT) // => /eqP; exact.
  by move=> x /mapP[i hi ->]; rewrite -p3 // e q3.
by rewrite -eqp.
Qed.

Lemma combined_agreement cls theta q : agreement D (combined_vector D vec cls theta) q =
  agrees D (fun i => \sum_(k < size cls) quot (nth o0 cls k) i *: 'X^k) theta q.
Proof.
rewrite /agreement /agrees; apply: eq_in_filter => i; rewrite mem_iota add0n => /andP[_ hi].
rewrite (nth_map 0%N) ?size_iota // nth_iota // add0n quotientsE horner_sum; congr (_ == _); apply: eq_bigr => k _.
by rewrite add0n hornerZ hornerXn mulrC.
Qed.
Lemma agreement_lt v q : all (fun i => i < size D)%N (agreement D v q) /\ uniq (agreement D v q).
Proof. by split; [apply/allP => i; rewrite mem_filter mem_iota => /andP[_ /andP[]]|rewrite filter_uniq // iota_uniq]. Qed.

Lemma sum_coef cls (f : nat -> F) k : (k < size cls)%N -> (\sum_(j < size cls) f j *: 'X^j : {poly F})`_k = f k.
Proof.
move=> hk; rewrite coef_sum (bigD1 (Ordinal hk)) //= coefZ coefXn eqxx mulr1 big1 ?addr0 // => j hj.
have nk : (k == j) = false by apply: contraNF hj => /eqP e; apply/eqP/val_inj.
by rewrite coefZ coefXn nk mulr0.
Qed.

Lemma claims_few b e cls (thetas : seq F) : (forall o, List.In o cls -> cl_point o \notin D) ->
  ((size cls).+1 * e + b < size D)%N -> uniq thetas -> (forall theta, theta \in thetas -> hides_claims D vec b e cls theta) ->
  (size thetas <= (size cls).-1 + (size cls).-1 * (size cls * e))%N.
Proof.
move=> hp hs ut hh; case ec : cls => [|o l].
  case: thetas ut hh => [//|t ts _ /(_ t (mem_head _ _))[q [_ _ []]]]; exists (fun _ => 0) => o; by rewrite ec.
rewrite -[size (o :: l)]/(size l).+1 -pred_Sn; set P := fun i => \sum_(k < size cls) quot (nth o0 cls k) i *: 'X^k.
have scl : size cls = (size l).+1 by rewrite ec.
apply: (@curve_few F D P (size l) b e thetas uD) => //.
- move=> x _; rewrite /P -scl; apply: leq_trans (size_sum _ _ _) _; apply/bigmax_leqP => i _.
  by apply: leq_trans (size_scale_leq _ _) _; rewrite size_polyXn.
- by rewrite -scl ltnW.
move=> theta /hh[q [q1 q2 q3]]; exists q; rewrite combined_agreement in q2 q3; split=> // c hc.
case: (boolP (all (fun x => P x == \sum_(i < (size l).+1) (c i).[nth 0 D x] *: 'X^i) (agrees D P theta q))) => [h|/allPn[x hx /eqP hn]]; last by exists x.
exfalso; apply: q3; have [a1 a2] := agreement_lt (combined_vector D vec cls theta) q; rewrite combined_agreement -/P in a1 a2.
apply: by_id => //.
  by rewrite -(ltn_add2r e); apply: leq_trans q2; apply: leq_trans hs; rewrite ltnS addnC leq_add2r mulSn leq_addr.
move=> o' /In_nth[k hk <-]; exists (shifted (nth o0 cls k) (c k)); split; [exact: size_shifted|exact: shifted_point|].
move=> i hi; apply: shifted_at; [exact/hp/nth_In|exact: (allP a1)|].
have /eqP := allP h _ hi; rewrite -scl => /(congr1 (fun p : {poly F} => p`_k)).
by rewrite (sum_coef (fun k => quot (nth o0 cls k) i)) // (sum_coef (fun k => (c k).[nth 0 D i])).
Qed.


(** Whether the claims are explained is decidable. *)
Lemma unshifted o (p : {poly F}) b : (size p <= b.+1)%N -> p.[cl_point o] = cl_value o ->
  exists2 c : {poly F}, (size c <= b)%N & p = shifted o c.
Proof.
move=> sp hp; have : root (p - (cl_value o)%:P) (cl_point o) by rewrite rootE hornerD hornerN hornerC hp subrr.
case/factor_theorem => c hc; exists c; last by rewrite /shifted mulrC -hc addrC subrK.
case: (eqVneq c 0) => [->|nz]; first by rewrite size_poly0.
have : (size (p - (cl_value o)%:P)%R <= b.+1)%N.
  by apply: leq_trans (size_add _ _) _; rewrite size_opp geq_max sp (leq_trans (size_polyC_leq1 _)).
by rewrite hc size_mul ?polyXsubC_eq0 // size_XsubC addn2.
Qed.
Lemma unshifted_at o (c : {poly F}) i : cl_point o \notin D -> (i < size D)%N -> nth 0 (vec (cl_id o)) i = (shifted o c).[nth 0 D i] -> quot o i = c.[nth 0 D i].
Proof.
move=> hp hi hq; rewrite /quot hq /shifted hornerD hornerM hornerC hornerXsubC [_ + _ * _]addrC addrK mulrAC divff ?mul1r //.
by rewrite subr_eq0; apply: contraNneq hp => <-; exact: mem_nth.
Qed.
Lemma explains_dec b cls T : uniq T -> all (fun i => i < size D)%N T -> (b < size T)%N -> (forall o, List.In o cls -> cl_point o \notin D) ->
  (exists p, explains D vec b cls T p) \/ ~ (exists p, explains D vec b cls T p).
Proof.
move=> uT hT sT hp.
have : (forall o, List.In o cls -> exists p : {poly F}, [/\ (size p <= b.+1)%N, p.[cl_point o] = cl_value o &
    forall i, i \in T -> nth 0 (vec (cl_id o)) i = p.[nth 0 D i]]) \/ ~ (exists p, explains D vec b cls T p).
  elim: cls hp => [|o cls ih] hp; first by left.
  have [h|h] := ih (fun o' ho => hp o' (or_intror ho)); last first.
    by right=> -[p hh]; apply: h; exists p => o' ho; apply: hh; right.
  have at_ i : i \in T -> nth 0 [seq quot o i | i <- iota 0 (size D)] i = quot o i.
    by move=> hi; rewrite (nth_map 0%N) ?size_iota ?nth_iota ?(allP hT).
  have [[c sc hc]|hno] := explain_dec [seq quot o i | i <- iota 0 (size D)] b uD uT hT.
    left=> o' [<-|/h] //; exists (shifted o c); split; [exact: size_shifted|exact: shifted_point|] => i hi.
    by apply: shifted_at; [apply: hp; left|exact: (allP hT)|rewrite -hc // at_].
  right=> -[p /(_ o (or_introl erefl))[p1 p2 p3]]; have [c sc ec] := unshifted p1 p2.
  have [i hi] := hno c sc; apply; rewrite at_ //; apply: unshifted_at; [apply: hp; left|exact: (allP hT)|] => //.
  by rewrite -ec p3.
by case=> [h|]; [left; apply: by_id|right].
Qed.
Lemma explains_sub b cls T T' p : {subset T' <= T} -> explains D vec b cls T p -> explains D vec b cls T' p.
Proof. by move=> hs h o /h[h1 h2 h3]; split=> // i /hs/h3. Qed.

(** A combination that is a polynomial on a large set: explained there, or hidden *)
Lemma combined_explained b e cls theta (q : {poly F}) X : (e + b < size D)%N -> (forall o, List.In o cls -> cl_point o \notin D) ->
  (size q <= b)%N -> uniq X -> all (fun i => i < size D)%N X -> (size D <= size X + e)%N ->
  (forall i, i \in X -> quotients theta (fun id => nth 0 (vec id) i) (nth 0 D i) 0 cls = q.[nth 0 D i]) ->
  hides_claims D vec b e cls theta \/ exists p, explains D vec b cls X p.
Proof.
move=> hb hp sq uX hX sX hq; set A := agreement D (combined_vector D vec cls theta) q.
have [a1 a2] := agreement_lt (combined_vector D vec cls theta) q.
have hsub : {subset X <= A}.
  move=> i hi; rewrite mem_filter mem_iota add0n /= (allP hX) // andbT (nth_map 0%N) ?size_iota ?(allP hX) //.
  by rewrite nth_iota ?(allP hX) // add0n hq.
have sA : (size D <= size A + e)%N by apply: leq_trans sX _; rewrite leq_add2r; apply: uniq_leq_size.
have [||||[p h]|h] := @explains_dec b cls A => //.
- by rewrite -(ltn_add2l e) (leq_trans hb) // addnC.
- by right; exists p; apply: explains_sub h.
by left; exists q.
Qed.
End LpcProximity.
