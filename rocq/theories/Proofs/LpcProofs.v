(** Proofs about the list polynomial commitment. *)
From mathcomp Require Import all_ssreflect all_algebra.
From Verif.Model Require Import Base OrderedMap PlonkTable Domain Quotient PolysEvaluator Fri Lpc.
From Verif.Spec Require Import FriSpec LpcSpec.
From Verif.Proofs Require Import NatTac FieldTac PermProofs KzgProofs PackingProofs DomainProofs QuotientProofs EvaluatorProofs PlaceholderRun PlaceholderState FriComplete.
Set Implicit Arguments.
Unset Strict Implicit.
Unset Printing Implicit Defensive.
Import GRing.Theory.
Local Open Scope ring_scope.

Section Loops.
Variable F : fieldType.
Add Field Ff_lpc : (@ffield_theory F).
Implicit Types (theta x c : F) (os : seq (claim F)) (points : omapT (seq (seq F))) (z : eval_storage F).

Lemma quotients_cat theta v x os os' e : quotients theta v x e (os ++ os') = quotients theta v x e os + quotients theta v x (e + size os) os'.
Proof.
elim: os e => [|o os ih] e /=; first by rewrite add0r addn0.
by rewrite ih addnS addSn addrA.
Qed.
Lemma z_indicesE z : z_indices z = Some (places z).
Proof.
rewrite /z_indices /batch_indices /places.
rewrite (@omapM_some _ _ _ (fun k => [seq (k, i) | i <- iota 0 (size (odflt [::] (om_get z k)))])) //.
by move=> k /om_get_someP [zs ->].
Qed.

(** ** Weighted sums *)
Fixpoint wsum theta (e : nat) (ids : seq (nat * nat)) (f : nat * nat -> F) : F :=
  if ids is id :: ids' then theta ^+ e * f id + wsum theta e.+1 ids' f else 0.
Lemma wsumE theta e ids f : wsum theta e ids f = \sum_(k < size ids) theta ^+ (e + k) * f (nth (0, 0)%N ids k).
Proof.
elim: ids e => [|id ids ih] e /=; first by rewrite big_ord0.
by rewrite big_ord_recl addn0 ih; congr (_ + _); apply: eq_bigr => k _; rewrite addSnnS.
Qed.
Lemma wsum_cat theta f ids ids' e : wsum theta e (ids ++ ids') f = wsum theta e ids f + wsum theta (e + size ids) ids' f.
Proof.
elim: ids e => [|o os ih] e /=; first by rewrite add0r addn0.
by rewrite ih addnS addSn addrA.
Qed.
(** A group of openings at one point *)
Lemma quotients_group theta v x c (val : nat * nat -> F) ids e :
  quotients theta v x e [seq Claim c id (val id) | id <- ids] = (wsum theta e ids v - wsum theta e ids val) / (x - c).
Proof.
elim: ids e => [|id ids ih] e /=; first by rewrite subr0 mul0r.
by rewrite ih mulrA -mulrDl; congr (_ / _); fring F.
Qed.
Lemma line_horner c x : (Poly [:: - c; 1]).[x] = x - c.
Proof. by rewrite -pevalE /=; fring F. Qed.

(** ** The verifier *)
Lemma point_group_inv points z theta c ids e ids0 u0 r :
  ofold (fun (st : seq (nat * nat) * F * F) id =>
    olet xs <- om_get2 points id;
    if c \in xs then
      olet zs <- om_get2 z id; olet v <- vget zs (index c xs);
      Some (rcons st.1.1 id, st.1.2 + v * st.2, st.2 * theta)
    else Some st) (ids0, u0, theta ^+ e) ids = Some r ->
  let sel := [seq id <- ids | c \in entry [::] points id] in
  r = (ids0 ++ sel, u0 + wsum theta e sel (fun id => nth 0 (entry [::] z id) (index c (entry [::] points id))), theta ^+ (e + size sel)).
Proof.
elim: ids e ids0 u0 => [|id ids ih] e ids0 u0 /=; first by move=> [<-]; rewrite cats0 addr0 addn0.
case E1: (om_get2 points id) => [xs|] //=.
have e1 : entry [::] points id = xs.
  by move: E1; rewrite /om_get2 /entry; case: om_get => [b|] //=; apply: nth_vget.
rewrite e1; case: ifP => hc /=; last by apply: ih.
case E2: (om_get2 z id) => [zs|] //=; case E3: (vget zs _) => [v|] //=.
have e2 : entry [::] z id = zs.
  by move: E2; rewrite /om_get2 /entry; case: om_get => [b|] //=; apply: nth_vget.
rewrite e1 e2 -exprSr => /ih ->; rewrite cat_rcons addSnnS; congr (_, _, _).
by rewrite (nth_vget 0 E3) addrA [theta ^+ e * v]mulrC.
Qed.

Lemma fixed_group_inv (s : lpc_scheme F) theta ids e ids0 u0 r :
  ofold (fun (st : seq (nat * nat) * F * F) id =>
    if is_fixed s id.1 then
      olet v <- vget (odflt [::] (om_get (ls_fixed_values s) id.1)) id.2;
      Some (rcons st.1.1 id, st.1.2 + v * st.2, st.2 * theta)
    else Some st) (ids0, u0, theta ^+ e) ids = Some r ->
  let sel := [seq id <- ids | is_fixed s id.1] in
  r = (ids0 ++ sel, u0 + wsum theta e sel (fun id => nth 0 (odflt [::] (om_get (ls_fixed_values s) id.1)) id.2), theta ^+ (e + size sel)).
Proof.
elim: ids e ids0 u0 => [|id ids ih] e ids0 u0 /=; first by move=> [<-]; rewrite cats0 addr0 addn0.
case: ifP => hc /=; last by apply: ih.
case E3: (vget _ id.2) => [v|] //=.
rewrite -exprSr => /ih ->; rewrite cat_rcons addSnnS; congr (_, _, _).
by rewrite (nth_vget 0 E3) addrA [theta ^+ e * v]mulrC.
Qed.
Lemma combinationS theta v x e ids u V gs : combination theta v x e ((ids, (u, V)) :: gs) =
  (wsum theta e ids v - u) / (Poly V).[x] + combination theta v x (e + size ids) gs.
Proof. by rewrite /= wsumE. Qed.
Lemma combination_cat theta v x e gs gs' : combination theta v x e (gs ++ gs') =
  combination theta v x e gs + combination theta v x (e + size (flatten [seq g.1 | g <- gs])) gs'.
Proof.
elim: gs e => [|[ids [u V]] gs ih] e /=; first by rewrite add0r addn0.
by rewrite ih -addrA size_cat addnA.
Qed.
Lemma map_claim_id c (val : nat * nat -> F) ids : [seq cl_id o | o <- [seq Claim c id (val id) | id <- ids]] = ids.
Proof. by rewrite -map_comp map_id_in. Qed.

Lemma point_groups_inv points z theta ids pts : forall e ids0 u0 r,
  ofold (fun (st : seq (seq (nat * nat)) * seq F * F) point =>
      olet g <- point_group points z theta point ids st.2;
      Some (rcons st.1.1 g.1.1, rcons st.1.2 g.1.2, g.2)) (ids0, u0, theta ^+ e) pts = Some r ->
  let cls := flatten [seq [seq Claim c id (nth 0 (entry [::] z id) (index c (entry [::] points id))) | id <- ids & c \in entry [::] points id] | c <- pts] in
  exists idss U, [/\ r = (ids0 ++ idss, u0 ++ U, theta ^+ (e + size cls)), size idss = size pts, size U = size pts,
    flatten idss = [seq cl_id o | o <- cls] &
    forall v x, combination theta v x e (zip idss (zip U [seq [:: - c; 1] | c <- pts])) = quotients theta v x e cls].
Proof.
elim: pts => [|c pts ih] e ids0 u0 r /=.
  by move=> [<-]; exists [::], [::]; rewrite !cats0 addn0.
rewrite {1}/point_group; case E: (ofold _ _ ids) => [g|] //=.
move/point_group_inv: E => /= ->; rewrite [_.1.1]/= [_.1.2]/= [_.2]/= add0r.
set sel := [seq id <- ids | _]; set w := wsum _ _ _ _.
case/ih=> idss [U] [-> h1 h2 h3 h4]; exists (sel :: idss), (w :: U); split.
- by rewrite !cat_rcons size_cat size_map addnA.
- by rewrite /= h1.
- by rewrite /= h2.
- by rewrite /= map_cat map_claim_id h3.
move=> v x; rewrite (combinationS theta v x e sel w [:: - c; 1]) h4 quotients_cat size_map; congr (_ + _).
by rewrite quotients_group line_horner.
Qed.

Lemma verifier_groups_inv (s : lpc_scheme F) z theta ids U V : verifier_groups s z theta = Some (ids, U, V) ->
  [/\ size U = size V, size ids = size U, flatten ids = [seq cl_id o | o <- claims s z],
    (forall v x, combination theta v x 0 (zip ids (zip U V)) = quotients theta v x 0 (claims s z)) &
    V = [seq [:: - c; 1] | c <- get_unique_points (ev_points (ls_ev s))] ++ (if has (fun e => e.2) (ls_fixed s) then [:: [:: - ls_etha s; 1]] else [::])].
Proof.
rewrite /verifier_groups z_indicesE [obnd _ _]/=.
case E: (ofold _ _ _) => [r|] //=.
move: (E : ofold _ ([::], [::], theta ^+ 0) _ = Some r) => {E} /point_groups_inv [idss] [U0] [er h1 h2 h3 h4].
rewrite er !cat0s [_.2]/= [_.1.1]/= [_.1.2]/=.
case: ifP => hf; last first.
  move=> [<- <- <-]; rewrite cats0 size_map h1 h2 /claims.
  have -> : [seq id <- places z | is_fixed s id.1] = [::].
    rewrite -(filter_pred0 (places z)); apply: eq_filter => id /=; apply/negbTE; move/negP: hf => hf; apply/negP; rewrite /is_fixed.
    case E: (om_get _ _) => [[]|] //= _; apply: hf; move: E; elim: (ls_fixed s) => [|[k b] m ihm] //=.
    by case: eqP => [_ [->]|_ /ihm ->] //; rewrite orbT.
  by rewrite cats0; split.
rewrite {1}/fixed_group; case E: (ofold _ _ (places z)) => [g|] //=.
move: E; rewrite add0n => /fixed_group_inv /= -> [<- <- <-].
rewrite !size_rcons size_map h1 h2 -!cats1; split=> //.
- by rewrite flatten_cat h3 /claims map_cat map_claim_id /= cats0.
- move=> v x; rewrite zip_cat ?size_map // zip_cat ?size_zip ?size_map ?h1 ?h2 ?minnn // combination_cat h4 /claims quotients_cat; congr (_ + _).
  rewrite map_fst_zip ?size_zip ?size_map ?h1 ?h2 ?minnn // h3 size_map quotients_group.
  by rewrite [zip _ _]/= combinationS add0r line_horner !add0n /= addr0.
Qed.
End Loops.

Section Prover.
Variable F : fieldType.
Add Field Ff_lpc2 : (@ffield_theory F).
Implicit Types (theta x c : F).

Lemma div_root (N : {poly F}) c : N.[c] = 0 -> N = (N %/ ('X - c%:P)) * ('X - c%:P).
Proof. by move=> h; rewrite Pdiv.IdomainUnit.divpK ?lead_coefXsubC ?unitr1 // dvdp_XsubCl /root h. Qed.
Lemma div_horner (N : {poly F}) c x : N.[c] = 0 -> x != c -> (N %/ ('X - c%:P)).[x] = N.[x] / (x - c).
Proof.
move=> h hx; rewrite {2}(div_root h) hornerM hornerXsubC mulfK //.
by rewrite subr_eq0.
Qed.
Lemma size_quotient (N : {poly F}) c d : (size N <= d)%N -> (size (N %/ ('X - c%:P))%R <= d)%N.
Proof. by apply: leq_trans; rewrite size_divp ?polyXsubC_eq0 // leq_subr. Qed.

Variable d : nat.
Hypothesis hd : (0 < d)%N.
Variables (p : nat * nat -> {poly F}) (ids : seq (nat * nat)).
Hypothesis small : {in ids, forall id, (size (p id) <= d)%N}.

(** A loop that adds the polynomials of [sel], weighted, minus constants *)
Lemma numerator_loop theta (sel : pred (nat * nat)) (f : {poly F} * F -> nat * nat -> option ({poly F} * F)) (v : nat * nat -> F) ids' :
  {subset ids' <= ids} ->
  (forall st id, id \in ids' -> f st id = if sel id then Some (st.1 + st.2 *: p id - (v id * st.2)%:P, st.2 * theta) else Some st) ->
  forall e N0, exists2 N, ofold f (N0, theta ^+ e) ids' = Some (N0 + N, theta ^+ (e + size (filter sel ids'))) &
    (size N <= d)%N /\ forall x, N.[x] = wsum theta e (filter sel ids') (fun id => (p id).[x]) - wsum theta e (filter sel ids') v.
Proof.
elim: ids' => [|id ids' ih] hsub hf e N0 /=.
  by exists 0; rewrite ?addr0 ?addn0 // size_poly0; split=> // x; rewrite horner0 subr0.
have hid : id \in ids by apply: hsub; rewrite mem_head.
have hsub' : {subset ids' <= ids} by move=> i hi; apply: hsub; rewrite inE hi orbT.
have hf' : forall st id0, id0 \in ids' -> f st id0 = if sel id0 then Some (st.1 + st.2 *: p id0 - (v id0 * st.2)%:P, st.2 * theta) else Some st.
  by move=> st i hi; apply: hf; rewrite inE hi orbT.
rewrite hf ?mem_head //; case: ifP => hs /=; last by apply: ih.
rewrite -exprSr; case: (ih hsub' hf' e.+1 (N0 + theta ^+ e *: p id - (v id * theta ^+ e)%:P)) => N -> [hN hx].
exists (theta ^+ e *: p id - (v id * theta ^+ e)%:P + N); first by rewrite !addrA addSnnS.
split=> [|x].
  apply: leq_trans (size_add _ _) _; rewrite geq_max hN andbT.
  apply: leq_trans (size_add _ _) _; rewrite geq_max size_opp (leq_trans (size_scale_leq _ _)) ?small //=.
  by apply: leq_trans (size_polyC_leq1 _) hd.
by rewrite !hornerE hx; fring F.
Qed.
End Prover.

Section Honest.
Variable F : fieldType.
Add Field Ff_lpc3 : (@ffield_theory F).
Implicit Types (theta x c : F).
Variables (s : lpc_scheme F) (ev : evaluator F) (d : nat).
Hypothesis hd : (0 < d)%N.
Notation p := (entry 0 (ev_polys ev)).
Notation pts := (entry [::] (ev_points ev)).
Notation ids := (places (ev_z ev)).
Hypothesis keys : uniq (om_keys (ev_z ev)).
Hypothesis small : {in ids, forall id, (size (p id) <= d)%N}.
Hypothesis hpolys : {in ids, forall id, om_get2 (ev_polys ev) id = Some (p id)}.
Hypothesis hpoints : {in ids, forall id, om_get2 (ev_points ev) id = Some (pts id)}.
Hypothesis hz : {in ids, forall id, om_get2 (ev_z ev) id = Some [seq (p id).[x] | x <- pts id]}.
Hypothesis hfixed : {in ids, forall id, is_fixed s id.1 -> vget (odflt [::] (om_get (ls_fixed_values s) id.1)) id.2 = Some (p id).[ls_etha s]}.

Notation point_claims c := [seq Claim c id (nth 0 (entry [::] (ev_z ev) id) (index c (pts id))) | id <- ids & c \in pts id].
Lemma z_entry id c : id \in ids -> c \in pts id -> nth 0 (entry [::] (ev_z ev) id) (index c (pts id)) = (p id).[c].
Proof.
move=> hid hc; have := hz hid; rewrite /om_get2 /entry; case: (om_get (ev_z ev) id.1) => [b|] //= /(nth_vget [::]) ->.
by rewrite (nth_map 0) ?index_mem // nth_index.
Qed.
Lemma eq_in_wsum theta e (l : seq (nat * nat)) (f g : nat * nat -> F) : {in l, f =1 g} -> wsum theta e l f = wsum theta e l g.
Proof.
elim: l e => [|i l ih] e h //=; rewrite h ?mem_head // ih // => j hj; apply: h; by rewrite inE hj orbT.
Qed.
Lemma point_step theta c e : exists2 N, point_numerator ev theta c ids (theta ^+ e) = Some (N, theta ^+ (e + size (point_claims c))) &
  (size (N %/ ('X - c%:P))%R <= d)%N /\ forall x, x != c -> (N %/ ('X - c%:P)).[x] = quotients theta (fun id => (p id).[x]) x e (point_claims c).
Proof.
rewrite size_map.
pose v (id : nat * nat) := (p id).[c].
have hf : forall (st : {poly F} * F) id, id \in ids ->
    (olet xs <- om_get2 (ev_points ev) id;
    if c \in xs then
      olet p <- om_get2 (ev_polys ev) id; olet zs <- om_get2 (ev_z ev) id; olet v <- vget zs (index c xs);
      Some (st.1 + st.2 *: p - (v * st.2)%:P, st.2 * theta)
    else Some st) = if c \in pts id then Some (st.1 + st.2 *: p id - (v id * st.2)%:P, st.2 * theta) else Some st.
  move=> st id hid; rewrite hpoints //=; case: ifP => hc //; rewrite hpolys // hz //= (vget_nth 0) ?size_map ?index_mem //=.
  by rewrite (nth_map 0) ?index_mem // nth_index.
have [N hN [h1 h2]] := numerator_loop hd small (fun i hi => hi) hf e 0.
have h0 : N.[c] = 0 by rewrite h2 -/v subrr.
exists N; first by rewrite /point_numerator hN add0r.
split=> [|x hx]; first exact: size_quotient.
rewrite div_horner // h2 quotients_group; congr ((_ - _) / _); apply: eq_in_wsum => id; rewrite mem_filter => /andP[hc hid].
by rewrite z_entry.
Qed.
Lemma points_loop theta (cs : seq F) : forall e Q0, exists2 Q,
  ofold (fun (st : {poly F} * F) point =>
      olet n <- point_numerator ev theta point ids st.2;
      Some (st.1 + n.1 %/ ('X - point%:P), n.2)) (Q0, theta ^+ e) cs = Some (Q0 + Q, theta ^+ (e + size (flatten [seq point_claims c | c <- cs]))) &
  (size Q <= d)%N /\ forall x, x \notin cs -> Q.[x] = quotients theta (fun id => (p id).[x]) x e (flatten [seq point_claims c | c <- cs]).
Proof.
elim: cs => [|c cs ih] e Q0 /=; first by exists 0; rewrite ?addr0 ?addn0 // size_poly0; split=> // x; rewrite horner0.
have [N -> [h1 h2]] := point_step theta c e; rewrite [obnd _ _]/=.
have [Q -> [h3 h4]] := ih (e + size (point_claims c))%N (Q0 + N %/ ('X - c%:P)).
exists (N %/ ('X - c%:P) + Q); first by rewrite addrA size_cat addnA.
split=> [|x]; first by apply: leq_trans (size_add _ _) _; rewrite geq_max h1.
by rewrite inE negb_or => /andP[hx hx']; rewrite hornerD h2 // h4 // quotients_cat.
Qed.
(** The rows of places of the batches *)
Lemma places_row (A : Type) (m : omapT (seq A)) k : uniq (om_keys m) -> k \in om_keys m ->
  [seq id <- places m | id.1 == k] = [seq (k, i) | i <- iota 0 (size (odflt [::] (om_get m k)))].
Proof.
rewrite /places; elim: (om_keys m) => [|k' ks ih] //= /andP[hn hu]; rewrite filter_cat inE => /orP[/eqP ->|hk].
  rewrite -[RHS]cats0; congr (_ ++ _).
    by apply/all_filterP/allP => id /mapP[i _ ->] /=.
  apply/eqP; rewrite -size_eq0 size_filter -leqn0 leqNgt -has_count; apply/hasPn => id /flatten_mapP[k'' hk'' /mapP[i _ ->]] /=.
  by apply: contraNneq hn => <-.
rewrite ih // -[RHS]cat0s; congr (_ ++ _); apply/eqP; rewrite -size_eq0 size_filter -leqn0 leqNgt -has_count.
apply/hasPn => id /mapP[i _ ->] /=; by apply: contraNneq hn => ->.
Qed.
Lemma places_select (A : Type) (m : omapT (seq A)) (P : pred nat) : uniq (om_keys m) ->
  [seq id <- places m | P id.1] = flatten [seq [seq id <- places m | id.1 == k] | k <- om_keys m & P k].
Proof.
move=> hu.
have -> : [seq [seq id <- places m | id.1 == k] | k <- om_keys m & P k] =
    [seq [seq (k, i) | i <- iota 0 (size (odflt [::] (om_get m k)))] | k <- om_keys m & P k].
  by apply/eq_in_map => k; rewrite mem_filter => /andP[_ hk]; apply: places_row.
rewrite /places; elim: (om_keys m) => [|k ks ih] //=; rewrite filter_cat ih.
have -> : [seq x <- [seq (k, i) | i <- iota 0 (size (odflt [::] (om_get m k)))] | P x.1] =
  if P k then [seq (k, i) | i <- iota 0 (size (odflt [::] (om_get m k)))] else [::].
  by elim: (iota _ _) => [|i l ihl] /=; [|rewrite ihl]; case: (P k).
by case: ifP.
Qed.
Lemma fixed_loop theta (ks : seq nat) : all (is_fixed s) ks -> forall e Q0,
  let cls := [seq Claim (ls_etha s) id (nth 0 (odflt [::] (om_get (ls_fixed_values s) id.1)) id.2) |
               id <- flatten [seq [seq id <- ids | id.1 == k] | k <- ks]] in
  exists2 Q, ofold (fun (st : {poly F} * F) k =>
      olet n <- fixed_numerator s ev theta [seq id <- ids | id.1 == k] st.2;
      Some (st.1 + n.1 %/ ('X - (ls_etha s)%:P), n.2)) (Q0, theta ^+ e) ks = Some (Q0 + Q, theta ^+ (e + size cls)) &
  (size Q <= d)%N /\ forall x, x != ls_etha s -> Q.[x] = quotients theta (fun id => (p id).[x]) x e cls.
Proof.
elim: ks => [|k ks ih] /= hks e Q0; first by exists 0; rewrite ?addr0 ?addn0 // size_poly0; split=> // x; rewrite horner0.
case/andP: hks => hk hks; set row := [seq id <- ids | id.1 == k].
pose v (id : nat * nat) := (p id).[ls_etha s].
have hsub : {subset row <= ids} by move=> i; rewrite mem_filter => /andP[].
have hv id : id \in row -> vget (odflt [::] (om_get (ls_fixed_values s) id.1)) id.2 = Some (v id).
  by rewrite mem_filter => /andP[/eqP h1 h2]; apply: hfixed => //; rewrite h1.
have hf : forall (st : {poly F} * F) id, id \in row ->
    (olet q <- om_get2 (ev_polys ev) id; olet v <- vget (odflt [::] (om_get (ls_fixed_values s) id.1)) id.2;
    Some (st.1 + st.2 *: q - (v * st.2)%:P, st.2 * theta)) =
    if predT id then Some (st.1 + st.2 *: p id - (v id * st.2)%:P, st.2 * theta) else Some st.
  by move=> st id hid; rewrite hpolys ?hsub //= hv.
have [N hN [h1 h2]] := numerator_loop (sel := predT) hd small hsub hf e 0; rewrite filter_predT in hN h2.
have h0 : N.[ls_etha s] = 0 by rewrite h2 -/v subrr.
rewrite {1}/fixed_numerator hN add0r [obnd _ _]/=.
have [Q -> [h3 h4]] := ih hks (e + size row)%N (Q0 + N %/ ('X - (ls_etha s)%:P)).
exists (N %/ ('X - (ls_etha s)%:P) + Q); first by rewrite addrA map_cat size_cat !size_map addnA.
split=> [|x hx]; first by apply: leq_trans (size_add _ _) _; rewrite geq_max h3 size_quotient.
rewrite hornerD div_horner // h4 // map_cat quotients_cat size_map h2; congr (_ + _).
rewrite quotients_group; congr ((_ - _) / _); apply: eq_in_wsum => id hid; by rewrite (nth_vget 0 (hv _ hid)).
Qed.

(** The quotient of the prover is the sum of the quotients of the claims. *)
Lemma combined_quotientE theta : exists2 Q, combined_quotient s ev theta = Some Q &
  (size Q <= d)%N /\ (ev_points ev = ev_points (ls_ev s) -> forall x, x \notin get_unique_points (ev_points ev) ->
    (has (is_fixed s) (om_keys (ev_z ev)) -> x != ls_etha s) ->
    Q.[x] = quotients theta (fun id => (p id).[x]) x 0 (claims s (ev_z ev))).
Proof.
rewrite /combined_quotient z_indicesE [obnd _ _]/=.
have [Q1 h1 [h2 h3]] := points_loop theta (get_unique_points (ev_points ev)) 0 0.
move: (h1 : ofold _ (0, 1) _ = _) => ->; rewrite add0r add0n [obnd _ _]/=.
have hall : all (is_fixed s) [seq k <- om_keys (ev_z ev) | is_fixed s k] by apply: filter_all.
have [Q2 h4 [h5 h6]] := fixed_loop theta hall (size (flatten [seq point_claims c | c <- get_unique_points (ev_points ev)])) Q1.
rewrite h4; exists (Q1 + Q2); first by [].
split=> [|epts x hx he]; first by apply: leq_trans (size_add _ _) _; rewrite geq_max h2.
rewrite hornerD h3 // /claims -epts quotients_cat add0n; congr (_ + _); rewrite places_select //.
case: (boolP (has (is_fixed s) (om_keys (ev_z ev)))) => hh; first by apply: h6; apply: he.
move: hh h4; rewrite has_count -size_filter lt0n negbK size_eq0 => /eqP -> /= [hq _].
have -> : Q2 = 0 by apply: (addrI Q1); rewrite addr0 -hq.
by rewrite horner0.
Qed.
End Honest.
