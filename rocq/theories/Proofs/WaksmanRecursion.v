(** The recursion of the AS-Waksman routing: what [as_waksman_route_inner] leaves in the routing table. *)
From mathcomp Require Import all_ssreflect.
From Verif.Model Require Import Base OrderedMap IntegerPermutation AsWaksman.
From Verif.Proofs Require Import NatTac PermProofs WaksmanTopology WaksmanLevel WaksmanLoop WaksmanRoute.
Set Implicit Arguments.
Unset Strict Implicit.
Unset Printing Implicit Defensive.

(** ** The settings of a sub-network: rows [lo .. lo + n - 1], columns [left .. left + 2 k], permutation [pi] *)
Fixpoint settings (R : nat -> nat -> option bool) (k left lo n : nat) (pi : nat -> nat) : Prop :=
  if n <= 2 ^ k then
    if k is k'.+1 then
      [/\ forall i, i < n -> R left (lo + i) = None, forall i, i < n -> R (left + 2 * k) (lo + i) = None & settings R k' left.+1 lo n pi]
    else forall i, i < n -> R left (lo + i) = None /\ pi (lo + i) = lo + i
  else if n == 2 then
    [/\ R left lo = Some (pi lo != lo), R left lo.+1 = None & if pi lo != lo then pi lo = lo.+1 /\ pi lo.+1 = lo else pi lo.+1 = lo.+1]
  else if k is k'.+1 then
    exists np, [/\ level_set R left (left + 2 * k) lo n pi np,
      settings R k' left.+1 lo (n %/ 2) np & settings R k' left.+1 (lo + n %/ 2) (n - n %/ 2) np]
  else False.
Lemma settingsS R k left lo n pi : settings R k.+1 left lo n pi =
  if n <= 2 ^ k.+1 then
      [/\ forall i, i < n -> R left (lo + i) = None, forall i, i < n -> R (left + 2 * k.+1) (lo + i) = None & settings R k left.+1 lo n pi]
  else if n == 2 then
    [/\ R left lo = Some (pi lo != lo), R left lo.+1 = None & if pi lo != lo then pi lo = lo.+1 /\ pi lo.+1 = lo else pi lo.+1 = lo.+1]
  else
    exists np, [/\ level_set R left (left + 2 * k.+1) lo n pi np,
      settings R k left.+1 lo (n %/ 2) np & settings R k left.+1 (lo + n %/ 2) (n - n %/ 2) np].
Proof. by []. Qed.
Lemma settings0 R left lo n pi : settings R 0 left lo n pi =
  if n <= 1 then forall i, i < n -> R left (lo + i) = None /\ pi (lo + i) = lo + i
  else if n == 2 then
    [/\ R left lo = Some (pi lo != lo), R left lo.+1 = None & if pi lo != lo then pi lo = lo.+1 /\ pi lo.+1 = lo else pi lo.+1 = lo.+1]
  else False.
Proof. by []. Qed.
Local Arguments settings : simpl never.

Lemma pow_n2 k n : (n <= 2 ^ k.+1) = false -> (n == 2) = false /\ 2 < n.
Proof.
move=> h1; have n2 : 2 < n.
  rewrite ltnNge; apply/negP => h; move: h1; rewrite (leq_trans h) //.
  by rewrite expnS -{1}(muln1 2) leq_mul2l expn_gt0.
by split=> //; slia.
Qed.

Lemma canon_bounds lo x : lo <= x -> lo <= aw_canonical lo x <= x.
Proof. by move=> h; rewrite /aw_canonical; have := half_eq (x - lo); move: ((x - lo) %/ 2) => q; case: (odd _) => /=; slia. Qed.

Lemma level_set_ext R R' left right lo n pi np : 2 < n ->
  (forall c p, (c == left) || (c == right) -> lo <= p < lo + n -> R c p = R' c p) ->
  level_set R left right lo n pi np -> (forall x, lo <= x < lo + n -> lo <= pi x < lo + n) -> level_set R' left right lo n pi np.
Proof.
move=> n2 hR [h1 h2 h3 h4] hpi; split=> //.
- move=> x hx; have [t [e1 e2 e3 e4 e5]] := h1 x hx; exists t; split=> //.
    case: ifP e4 => // _ <-; symmetry; apply: hR; rewrite ?eqxx //.
    by move: hx => /andP[a1 a2]; case/andP: (canon_bounds a1) => -> b2; rewrite (leq_ltn_trans b2).
  case: ifP e5 => // _ <-; symmetry; apply: hR; rewrite ?eqxx ?orbT //.
  by move: (hpi _ hx) => /andP[a1 a2]; case/andP: (canon_bounds a1) => -> b2; rewrite (leq_ltn_trans b2).
- by move=> c z hc hz hne; rewrite -hR // (h2 _ _ hc).
- by move=> c hc; rewrite -hR // ?h3 //; slia.
Qed.

Definition maps (lo n : nat) (f : nat -> nat) := forall x, lo <= x < lo + n -> lo <= f x < lo + n.
Lemma maps_halves lo n f : (forall p, lo <= p < lo + n -> lo <= f p < lo + n /\ (f p < lo + n %/ 2) = (p < lo + n %/ 2)) ->
  maps lo (n %/ 2) f /\ maps (lo + n %/ 2) (n - n %/ 2) f.
Proof.
have := half_eq n; move: (n %/ 2) (odd n) => d b en h; split=> x hx.
  have hx' : lo <= x < lo + n by slia.
  have [h1 h2] := h x hx'; have -> : f x < lo + d by rewrite h2; slia.
  by rewrite andbT; slia.
have hx' : lo <= x < lo + n by slia.
have [h1 h2] := h x hx'; have h3 : (x < lo + d) = false by slia.
by rewrite h3 in h2; slia.
Qed.

Lemma settings_ext R R' k left lo n pi pi' :
  (forall c p, left <= c <= left + 2 * k -> lo <= p < lo + n -> R c p = R' c p) ->
  (forall p, lo <= p < lo + n -> pi p = pi' p) -> maps lo n pi ->
  settings R k left lo n pi -> settings R' k left lo n pi'.
Proof.
elim: k left lo n pi pi' => [|k ih] left lo n pi pi' hR hpi hm.
  rewrite !settings0 muln0 addn0 in hR *; case: leqP => hn.
    by move=> h i hi; have [h1 h2] := h i hi; rewrite -hR -?hpi //; slia.
  case: eqP => // en; have [a0 a1 a2] : [/\ left <= left <= left, lo <= lo < lo + n & lo <= lo.+1 < lo + n] by split; slia.
  by rewrite -!hR // -!hpi.
have hR' lo' n' : lo <= lo' -> lo' + n' <= lo + n ->
    forall c p, left.+1 <= c <= left.+1 + 2 * k -> lo' <= p < lo' + n' -> R c p = R' c p.
  by move=> b1 b2 c p hc hp; apply: hR; [move: hc|move: hp]; slia.
rewrite !settingsS; case: ifP => hk.
  case=> a1 a2 a3; split.
  - by move=> i hi; rewrite -hR ?a1 //; slia.
  - by move=> i hi; rewrite -hR ?a2 //; slia.
  by apply: ih a3 => //; apply: hR'.
have [-> n2] := pow_n2 hk; have en := half_eq n.
case=> np [a1 a2 a3]; exists np; have [m1 m2] := maps_halves (let: And4 _ _ _ h := a1 in h); split.
- have a1' : level_set R left (left + 2 * k.+1) lo n pi' np.
    case: a1 => h1 h2 h3 h4; split=> // x hx; have := h1 x hx; by rewrite hpi.
  apply: level_set_ext a1' _ => // [c p hc hp|x hx]; last by rewrite -hpi //; apply: hm.
  by apply: hR => //; case/orP: hc => /eqP->; slia.
- by apply: ih a2 => //; apply: hR'; slia.
- by apply: ih a3 => //; apply: hR'; slia.
Qed.

(** the last row of a sub-network never carries a setting *)
Lemma settings_last R k left lo n pi c : settings R k left lo n pi -> 0 < n -> left <= c <= left + 2 * k -> R c (lo + n - 1) = None.
Proof.
elim: k left lo n pi => [|k ih] left lo n pi hs hn hc.
  have ec : c = left by slia.
  move: hs; rewrite settings0 ec; case: leqP => h1.
    move=> h; have -> : (lo + n - 1 = lo + 0)%N by slia.
    by have [] := h 0 hn.
  by case: eqP => // en [_ h _]; have -> : (lo + n - 1 = lo.+1)%N by slia.
move: hs; rewrite settingsS; case: ifP => hk.
  case=> h1 h2 h3; have eh : (lo + n - 1 = lo + (n - 1))%N by slia.
  have hlt : n - 1 < n by slia.
  case: (c =P left) => [->|c1]; first by rewrite eh h1.
  case: (c =P (left + 2 * k.+1)%N) => [->|c2]; first by rewrite eh h2.
  by apply: ih h3 hn _; slia.
have [-> n2] := pow_n2 hk; have en := half_eq n; have ob := leq_b1 (odd n); case=> np [h1 h2 h3].
case: (boolP ((c == left) || (c == left + 2 * k.+1)%N)) => [hc'|/norP[c1 c2]]; first by case: h1 => _ _ h _; apply: h.
have -> : (lo + n - 1 = lo + n %/ 2 + (n - n %/ 2) - 1)%N by slia.
by apply: ih h3 _ _; slia.
Qed.

(** ** [as_waksman_route_inner] *)
Lemma route_unfold fuel left right lo hi p q rt : as_waksman_route_inner fuel.+1 left right lo hi p q rt =
  if left > right then Some rt else
    let n := (hi - lo + 1)%N in
    if right - left + 1 >= aw_num_columns n then
    if right - left + 1 > aw_num_columns n then
      if right > 0 then as_waksman_route_inner fuel left.+1 right.-1 lo hi p q rt else None
    else if n == 2 then
      obnd (ip_get p lo) (fun y0 => obnd (ip_get p lo.+1) (fun y1 =>
      if (y0 == lo) || (y0 == lo.+1) then if (y1 == lo) || (y1 == lo.+1) then if y0 != y1 then aw_rset rt left lo (y0 != lo) else None else None else None))
    else
      obnd (aw_start left right lo hi n p rt) (fun st0 =>
      obnd (aw_loop (2 * n + 1) left right lo hi n p q st0) (fun st =>
      obnd (if odd n then Some (aw_r st) else aw_erase (aw_r st) left (hi - 1)) (fun rt1 =>
      if (0 < n %/ 2) && (0 < right) then
        obnd (ip_slice (aw_perm st) lo (lo + n %/ 2 - 1)) (fun up =>
        obnd (ip_slice (aw_perm st) (lo + n %/ 2) hi) (fun dn =>
        obnd (ip_slice (aw_inv st) lo (lo + n %/ 2 - 1)) (fun upi =>
        obnd (ip_slice (aw_inv st) (lo + n %/ 2) hi) (fun dni =>
        obnd (as_waksman_route_inner fuel left.+1 right.-1 lo (lo + n %/ 2 - 1) up upi rt1) (fun rt2 =>
        as_waksman_route_inner fuel left.+1 right.-1 (lo + n %/ 2) hi dn dni rt2)))))
      else None)))
    else None.
Proof. by []. Qed.
Lemma route_done fuel left right lo hi p q rt : right < left -> as_waksman_route_inner fuel left right lo hi p q rt = Some rt.
Proof. by case: fuel => [|fuel] /= ->. Qed.
Local Arguments as_waksman_route_inner : simpl never.
Local Arguments aw_loop : simpl never.

Lemma route_ok fuel k left lo n p q pi pinv rt : k < fuel -> left + 2 * k < size rt -> 0 < n -> (0 < left) || (1 < n) -> n <= 2 ^ k.+1 ->
  pperm lo n p q pi pinv -> (forall c z, left <= c <= left + 2 * k -> lo <= z < lo + n -> rf rt c z = None) ->
  exists rt', [/\ as_waksman_route_inner fuel left (left + 2 * k) lo (lo + n - 1) p q rt = Some rt', size rt' = size rt,
    forall c z, outside left k lo n c z -> rf rt' c z = rf rt c z & settings (rf rt') k left lo n pi].
Proof.
elim: k fuel left lo n p q pi pinv rt => [|k ih] [|fuel] left lo n p q pi pinv rt hf hw hn hln hk hp he //.
  rewrite route_unfold muln0 addn0 in hw he *; cbv zeta.
  have -> : (lo + n - 1 - lo + 1 = n)%N by slia.
  have -> : left - left + 1 = 2 * 0 + 1 by slia.
  rewrite ltnn (ncol_le 0 hn) (ncol_lt 0 hn) expn1 expn0; rewrite expn1 in hk; rewrite hk.
  case: ifP => h1.
    have en : n = 1 by slia.
    have -> : 0 < left by slia.
    rewrite route_done; last by slia.
    exists rt; split=> //; rewrite settings0 h1 => i hi; split; first by apply: he; slia.
    have hlo : lo <= lo < lo + n by slia.
    have -> : i = 0 by slia.
    by have [_ _ h _ _] := hp _ hlo; rewrite addn0; slia.
  have en : n = 2 by slia.
  rewrite en eqxx in hp he *.
  have [l0 l1] : lo <= lo < lo + 2 /\ lo <= lo.+1 < lo + 2 by split; slia.
  have [-> _ g0 _ [i0 _]] := hp _ l0; have [-> _ g1 _ [i1 _]] := hp _ l1; rewrite /=.
  have -> : (pi lo == lo) || (pi lo == lo.+1) by case: eqP => //= ne; slia.
  have -> : (pi lo.+1 == lo) || (pi lo.+1 == lo.+1) by case: eqP => //= ne; slia.
  have hne : pi lo != pi lo.+1 by apply/eqP => e; move: i1; rewrite -e i0; slia.
  rewrite hne; have [rt' [e1 s1 g]] := aw_rset_ok lo (pi lo != lo) hw.
  exists rt'; split=> //.
    move=> c z; rewrite /outside muln0 addn0 => h; rewrite g; case: (boolP (_ && _)) => // /andP[/eqP ec /eqP ez].
    by move: h; rewrite ec ez leqnn l0.
  rewrite settings0 /= !g !eqxx /=; split=> //.
    have -> : (lo.+1 == lo) = false by slia.
    by apply: he => //; rewrite leqnn.
  by case: eqP => /= h; [slia|split; slia].
rewrite route_unfold; cbv zeta.
have -> : (lo + n - 1 - lo + 1 = n)%N by slia.
have -> : (left + 2 * k.+1 < left) = false by slia.
have -> : (left + 2 * k.+1 - left + 1 = 2 * k.+1 + 1)%N by slia.
rewrite (ncol_le k.+1 hn) (ncol_lt k.+1 hn) hk.
have [hl hr] : left < size rt /\ left + 2 * k.+1 < size rt by split; slia.
have hne : left != left + 2 * k.+1 by slia.
have e0 : (left + 2 * k.+1).-1 = left.+1 + 2 * k by slia.
have hr0 : 0 < left + 2 * k.+1 by slia.
have hw' : left.+1 + 2 * k < size rt by slia.
case: ifP => h1.
  rewrite hr0 e0.
  have [|rt' [e2 s2 f2 t2]] := ih fuel left.+1 lo n p q pi pinv rt hf hw' hn isT h1 hp.
    by move=> c z hc hz; apply: he => //; slia.
  exists rt'; rewrite settingsS h1; split=> //.
    by move=> c z h; apply: f2; apply: contra h => /andP[h ->]; rewrite andbT; slia.
  split=> //.
    by move=> i hi; rewrite f2 ?he //; [slia|slia|apply: out_c; rewrite ltnSn].
  by move=> i hi; rewrite f2 ?he //; [slia|slia|apply: out_c; apply/orP; right; slia].
have [n22 n2] := pow_n2 h1; rewrite n22.
have [d1 d2] := half_le hk; have en := half_eq n; have ob := leq_b1 (odd n).
have dpos : 0 < n %/ 2 by slia.
have he' c z : (c == left) || (c == left + 2 * k.+1)%N -> lo <= z < lo + n -> rf rt c z = None.
  by move=> hc hz; apply: he => //; case/orP: hc => /eqP->; slia.
have [st0 [st [rt1 [np [npi [e1 e2 e3 [s1 f1 ls] [w1 w2 [mn1 mx1] [mn2 mx2] g]]]]]]] := level_ok n2 hne hl hr hp he'.
rewrite e1 /= e2 /= e3 /= dpos hr0 /= e0.
have b1 : ip_min (aw_perm st) <= lo by rewrite mn1.
have b1' : ip_min (aw_inv st) <= lo by rewrite mn2.
have b2 : lo <= lo + n %/ 2 - 1 by slia.
have b3 : lo + n %/ 2 - 1 <= ip_max (aw_perm st) by rewrite mx1; slia.
have b3' : lo + n %/ 2 - 1 <= ip_max (aw_inv st) by rewrite mx2; slia.
have c1 : ip_min (aw_perm st) <= lo + n %/ 2 by rewrite mn1; slia.
have c1' : ip_min (aw_inv st) <= lo + n %/ 2 by rewrite mn2; slia.
have c2 : lo + n %/ 2 <= lo + n - 1 by slia.
have c3 : lo + n - 1 <= ip_max (aw_perm st) by rewrite mx1.
have c3' : lo + n - 1 <= ip_max (aw_inv st) by rewrite mx2.
have [up [-> _ _ _ gu]] := ip_slice_ok w1 b1 b2 b3.
have [dn [-> _ _ _ gd]] := ip_slice_ok w1 c1 c2 c3.
have [upi [-> _ _ _ gui]] := ip_slice_ok w2 b1' b2 b3'.
have [dni [-> _ _ _ gdi]] := ip_slice_ok w2 c1' c2 c3'.
rewrite /=.
have [mp1 mp2] := maps_halves (fun p hp => let: And5 _ _ h _ _ := g p hp in h).
have [mi1 mi2] := maps_halves (fun p hp => let: And5 _ _ _ h _ := g p hp in h).
have P1 : pperm lo (n %/ 2) up upi np npi.
  move=> x hx; have hx' : lo <= x < lo + n by slia.
  have hx2 : lo <= x <= lo + n %/ 2 - 1 by slia.
  have [a1 a2 _ _ a5] := g x hx'; rewrite gu ?gui //; split=> //; [exact: mp1|exact: mi1].
have P2 : pperm (lo + n %/ 2) (n - n %/ 2) dn dni np npi.
  move=> x hx; have hx' : lo <= x < lo + n by slia.
  have hx2 : lo + n %/ 2 <= x <= lo + n - 1 by slia.
  have [a1 a2 _ _ a5] := g x hx'; rewrite gd ?gdi //; split=> //; [exact: mp2|exact: mi2].
have he1 c z : left.+1 <= c <= left.+1 + 2 * k -> lo <= z < lo + n -> rf rt1 c z = None.
  move=> hc hz; rewrite f1 ?he //; first by slia.
  by apply/negP => /andP[/orP[]/eqP ec _]; slia.
have w' : left.+1 + 2 * k < size rt1 by rewrite s1.
have [|rt2 [-> s2 f2 t2]] := ih fuel left.+1 lo (n %/ 2) up upi np npi rt1 hf w' dpos isT d1 P1.
  by move=> c z hc hz; apply: he1 => //; slia.
have eh : lo + n - 1 = lo + n %/ 2 + (n - n %/ 2) - 1 by slia.
have w2' : left.+1 + 2 * k < size rt2 by rewrite s2 s1.
have dpos2 : 0 < n - n %/ 2 by slia.
have [|rt3 [e4 s4 f4 t4]] := ih fuel left.+1 (lo + n %/ 2) (n - n %/ 2) dn dni np npi rt2 hf w2' dpos2 isT d2 P2.
  move=> c z hc hz; rewrite f2 ?he1 //; first by slia.
  by apply: out_p; apply/orP; right; slia.
rewrite /= eh e4; exists rt3; rewrite settingsS h1 n22.
split=> //.
- by rewrite s4 s2 s1.
- move=> c z h; rewrite f4 ?f2 ?f1 //; apply: contra h => /andP[a1 a2]; apply/andP; split; move: a1 a2;
    first [slia | by case/orP => /eqP->; slia].
exists np; split.
- apply: level_set_ext ls _ => //; last by move=> x hx; have [] := hp x hx.
  move=> c z hc hz; rewrite f4 ?f2 //; apply: out_c; case/orP: hc => /eqP->; apply/orP; [left|right|left|right]; slia.
- apply: settings_ext t2 => // c z hc hz; rewrite f4 //; apply: out_p; apply/orP; left; slia.
- by [].
Qed.
