(** One complete level of the AS-Waksman routing algorithm, and the recursion. *)
From mathcomp Require Import all_ssreflect.
From Verif.Model Require Import Base OrderedMap IntegerPermutation AsWaksman.
From Verif.Proofs Require Import NatTac PermProofs WaksmanTopology WaksmanLevel WaksmanLoop.
Set Implicit Arguments.
Unset Strict Implicit.
Unset Printing Implicit Defensive.
Local Arguments aw_canonical : simpl never.
Local Arguments aw_other : simpl never.
Local Arguments aw_switch_output : simpl never.
Local Arguments aw_forward : simpl never.
Local Arguments aw_backward : simpl never.
Local Arguments aw_loop : simpl never.

Section Start.
Variables (left right lo n : nat) (perm inve : iperm) (rt0 : aw_routing).
Hypothesis n2 : 2 < n.
Hypothesis lr : left != right.
Hypothesis left_ok : left < size rt0.
Hypothesis right_ok : right < size rt0.
Notation d := (n %/ 2).
Notation hi := (lo + n - 1)%N.
Notation canon := (aw_canonical lo).
Notation sib := (aw_other lo).
Notation port := (port lo n).
Notation topp := (topp lo).
Notation pos := (pos lo n).
Notation lastp := (lastp lo n).
Notation dec := (dec lo).
Variables (pi pinv : nat -> nat).
Hypothesis pi_port : forall x, port x -> port (pi x).
Hypothesis pinv_port : forall x, port x -> port (pinv x).
Hypothesis piK : forall x, port x -> pinv (pi x) = x.
Hypothesis pinvK : forall x, port x -> pi (pinv x) = x.
Hypothesis pi_last : odd n -> pi lastp = lastp.
Hypothesis perm_get : forall x, lo <= x <= hi -> ip_get perm x = Some (pi x).
Hypothesis inve_get : forall x, lo <= x <= hi -> ip_get inve x = Some (pinv x).
Hypothesis empty : forall c z, (c == left) || (c == right) -> lo <= z <= hi -> rf rt0 c z = None.
Notation inv := (inv lo n pi pinv).
Notation rel := (rel left right lo n rt0 pinv).
Notation good := (good lo n pinv).

Let Phi : port hi := port_hi lo n2.
Definition r0 z := hi < z.
Definition M0 : nat -> option bool := upd (fun=> None) (canon hi) (Some (topp hi (+) false)).
Definition R0 : nat -> option bool := if odd n then M0 else fun=> None.
Definition E0 : seq nat := if odd n then [:: lastp] else [::].

Lemma dec_M0 : dec M0 hi = Some false. Proof. exact: dec_upd. Qed.
Lemma M0_some z : M0 z <> None -> z = canon hi. Proof. by rewrite /M0 /upd; case: eqP. Qed.
Lemma inv0 : inv r0 M0 R0 id id E0 E0.
Proof.
have lastE : odd n -> sib hi = lastp by move=> h; rewrite last_odd.
have r0s : odd n -> r0 (sib hi) by move=> h; rewrite /r0 sib_hi // h; have := n2; slia.
have n0r x : port x -> r0 x -> odd n /\ x = sib hi by rewrite /r0; apply: port_gt.
have pl : odd n -> pinv lastp = lastp by move=> h; rewrite -{1}(pi_last h) piK // port_last.
split.
- move=> x hx hr; have [ho ex] := n0r _ hx hr; exists true; rewrite ex (lastE ho) (pi_last ho) /R0 ho -(lastE ho).
  by rewrite (dec_sibS Phi dec_M0); split=> //; move: (r0s ho); rewrite /r0; slia.
- move=> x hx hr; have [ho ex] := n0r _ hx hr; by rewrite /E0 ho ex -(lastE ho) mem_head orbT.
- move=> y hy hr; have [ho ex] := n0r _ (pinv_port hy) hr.
  have -> : y = lastp by rewrite -(pinvK hy) ex lastE // pi_last.
  by rewrite /E0 ho mem_head orbT.
- move=> x hx /M0_some e; rewrite e eqxx.
  case: (boolP (odd n)) => ho; last first.
    by rewrite (dec_get dec_M0) topp_hi // (negbTE ho) !orbT.
  by case: (canon_eq Phi hx (esym e)) => ->; rewrite ?(r0s ho) ?orbT.
- move=> y hy; rewrite /R0; case: (boolP (odd n)) => // ho /M0_some e.
  case: (canon_eq Phi hy (esym e)) => ->; rewrite ?(lastE ho) ?pl //.
    by rewrite -(lastE ho) (r0s ho) orbT.
  by rewrite -(lastE ho) (r0s ho).
- by split; [exact: dec_M0|rewrite /R0 => ->; exact: dec_M0].
- by move=> z; rewrite /r0; case: (ltnP hi z).
- split=> z; first by move/M0_some => ->; exists hi.
  by rewrite /R0; case: (odd n) => // /M0_some ->; exists hi.
Qed.

Lemma range_get p : lo <= p <= hi -> ip_get (ip_range lo hi) p = Some p.
Proof.
move=> hp; have hlh : lo <= hi by have := n2; slia.
rewrite (ip_get_in (ip_range_wf hlh)) //= nth_iota; last by slia.
by congr Some; slia.
Qed.
Lemma nseq_r0 x : lo <= x <= hi -> nth false (nseq n false) (x - lo) = r0 x.
Proof. by move=> h; rewrite nth_nseq if_same /r0; symmetry; apply/negbTE; rewrite -leqNgt; slia. Qed.
Lemma r0_hi : r0 hi = false. Proof. by rewrite /r0 ltnn. Qed.

Lemma start_ok : exists st r L R np npi mu A B,
  [/\ aw_start left right lo hi n perm rt0 = Some st, rel st r L R np npi mu, inv r L R np npi A B,
    (forall z, mu < z -> r z) /\ (odd n -> r hi) &
    good r L R mu (aw_left st) (aw_to_route st) A B /\ meas lo n pinv r (aw_left st) (aw_to_route st) < 2 * n + 1].
Proof.
have hlh : lo <= hi by have := n2; slia.
have hh0 : 0 < hi by have := n2; slia.
have hhr : lo <= hi <= hi by rewrite hlh leqnn.
have wr := ip_range_wf hlh.
have lr' : (right == left) = false by rewrite eq_sym (negbTE lr).
rewrite /aw_start; case: (boolP (odd n)) => ho; last first.
  rewrite hh0 /=.
  have [//|rt1 [-> sz1 f1]] := @aw_rset_ok rt0 left (hi - 1) false.
  have ec : canon hi = (hi - 1)%N by rewrite canon_hi // ho.
  exists (AwState (ip_range lo hi) (ip_range lo hi) (nseq n false) hi hi true rt1), r0, M0, R0, id, id, hi, [::], [::].
  split=> //.
  - split=> //=; try by split=> //; apply: range_get.
    + by split; [rewrite size_nseq|exact: nseq_r0].
    + move=> z hz; rewrite f1 eqxx (negbTE ho) /= /M0 /upd ec; case: eqP => // _; last by rewrite empty // eqxx.
      by rewrite topp_hi // (negbTE ho).
    + by move=> z hz; rewrite f1 lr' /= empty ?eqxx ?orbT // /R0 (negbTE ho); case: ifP.
    + move=> c z h; rewrite f1 ifN //; apply: contra h => /andP [-> /eqP ->] /=.
      by move: (canon_range Phi (leqnn _)); rewrite ec.
  - by have := inv0; rewrite /E0 (negbTE ho).
  split; first by apply: Gfresh; rewrite r0_hi.
  rewrite /meas /= addn0 /unrouted.
  by have := count_size (fun x => ~~ r0 x) (iota lo n); rewrite size_iota; slia.
rewrite (obnd_some _ (perm_get hhr)) hh0.
have hy := pi_port Phi.
have lastE : sib hi = lastp by rewrite last_odd.
have pl : pinv lastp = lastp by rewrite -{1}(pi_last ho) piK // port_last.
have r0l : r0 lastp by rewrite -lastE /r0 sib_hi // ho; have := n2; slia.
have hyh := pi_hi n2 pi_port piK pi_last Phi (leqnn _).
have ub x : ~~ r0 x -> lo <= x <= hi -> 2 * unrouted lo n (addr r0 x) < 2 * n + 1.
  by move=> _ _; rewrite addn1 ltnS leq_mul2l /=; apply: leq_trans (count_size _ _) _; rewrite size_iota.
have hsz : hi - lo < size (nseq n false) by rewrite size_nseq rng.
have [rd1 [er sr1 gr1]] := @vset_ok _ false (nseq n false) (hi - lo) true hsz.
have nh : ~~ r0 hi by rewrite r0_hi.
have r_rel : size rd1 = n /\ forall x, lo <= x <= hi -> nth false rd1 (x - lo) = addr r0 hi x.
  split; first by rewrite sr1 size_nseq.
  move=> x hx; rewrite gr1 nseq_r0 // /addr (rng_eq hhr hx); by case: eqP.
have mur : lo <= hi - 1 <= hi by have := n2; slia.
have abv : (forall z, hi - 1 < z -> addr r0 hi z) /\ (true -> addr r0 hi hi).
  split; last by rewrite /addr eqxx.
  by move=> z hz; rewrite /addr /r0; apply/orP; case: (eqVneq z hi) => [_|]; [left|right; slia].
have RO t R2 A' B' := @route_one lo n n2 pi pinv pi_port piK pinvK pi_last r0 M0 R0 id id E0 E0 hi t M0 R2 A' B' inv0 Phi (leqnn _)
  (fun _ _ => erefl) (fun _ _ => erefl).
have RO' R2 A' B' := RO false R2 A' B'; rewrite dec_M0 in RO'.
case: (eqVneq (pi hi) hi) => [ey|hne].
  have hir : ip_min (ip_range lo hi) <= hi <= ip_max (ip_range lo hi) by [].
  have [np1 [-> w1 mn1 mx1 g1]] := ip_set_ok hi wr hir.
  rewrite /= er /=.
  exists (AwState np1 np1 rd1 (hi - 1) (hi - 1) true rt0), (addr r0 hi), M0, R0, (upd id (pos hi false) (pos hi false)),
    (upd id (pos hi false) (pos hi false)), (hi - 1)%N, [::], [::].
  have gr p : lo <= p <= hi -> ip_get np1 p = Some (upd id (pos hi false) (pos hi false) p).
    by move=> hp; rewrite g1 // /upd pos_hi //; case: eqP => // _; rewrite range_get.
  rewrite ey in RO.
  have I1 : inv (addr r0 hi) M0 R0 (upd id (pos hi false) (pos hi false)) (upd id (pos hi false) (pos hi false)) [::] [::].
    apply: RO => //; try exact: dec_M0.
    - by rewrite /R0 ho dec_M0.
    - by move=> z; rewrite /E0 ho inE lastE => /eqP ->; rewrite eqxx.
    - by rewrite lastE r0l.
    - by move=> z; rewrite /E0 ho inE lastE => /eqP ->; rewrite eqxx.
    - by rewrite lastE pl r0l.
  split=> //.
    split=> //=; try by split.
    + by move=> z hz; rewrite empty ?eqxx // /M0 /upd canon_hi // ho /= subn0; case: eqP.
    + by move=> z hz; rewrite empty ?eqxx ?orbT // /hid /R0 ho /M0 /upd andbT; case: eqP.
  split; last by rewrite /meas /= addn0; apply: ub.
  apply: Gfresh; rewrite /addr negb_or /r0 -leqNgt; apply/andP; split; have := n2; slia.
have hysw : canon (pi hi) < lo + 2 * d.
  apply: canon_sw => // e; case: (canon_eq Phi hy (esym e)) => [e'|e']; first by rewrite e' eqxx in hne.
  move: e'; rewrite lastE -{1}(pi_last ho) => /(pi_inj piK Phi (port_last lo n2)) e'.
  by move: nh; rewrite e' r0l.
have hcy := canon_range hy hyh.
set y := pi hi in hy hyh hne hysw hcy *.
have [//|rt1 [-> sz1 f1]] := @aw_rset_ok rt0 right (canon y) (aw_setting_of_decision lo y false).
rewrite /= /aw_switch_input (switch_pos false hy hysw) /=.
have hpr : lo <= pos y false <= hi := @pos_range lo n n2 y false hy (@proper_sw lo n n2 y false hy hysw).
have hir : ip_min (ip_range lo hi) <= hi <= ip_max (ip_range lo hi) by [].
have [np1 [-> w1 mn1 mx1 g1]] := ip_set_ok (pos y false) wr hir.
have hir2 : ip_min (ip_range lo hi) <= pos y false <= ip_max (ip_range lo hi) by [].
have [npi1 [-> w2 mn2 mx2 g2]] := ip_set_ok hi wr hir2.
rewrite /= er /=.
set R1 := upd R0 (canon y) (Some (topp y (+) false)).
have cne : canon y != canon hi by apply/eqP => e; move: hysw; rewrite e (@canon_hi_odd lo n n2 pi pi_last ho) ltnn.
have R0n : R0 (canon y) = None by rewrite /R0 ho /M0 /upd (negbTE cne).
exists (AwState np1 npi1 rd1 (sib y) (hi - 1) false rt1), (addr r0 hi), M0, R1, (upd id (pos hi false) (pos y false)),
  (upd id (pos y false) (pos hi false)), (hi - 1)%N, [::], [:: y; lastp].
have R1m : forall z, R0 z <> None -> R1 z = R0 z by apply: upd_mono; left.
have R1d : dec R1 y = Some false by exact: dec_upd.
have I1 : inv (addr r0 hi) M0 R1 (upd id (pos hi false) (pos y false)) (upd id (pos y false) (pos hi false)) [::] [:: y; lastp].
  apply: RO => //; try exact: dec_M0.
  - by move=> z; apply: upd_other.
  - by move=> z; rewrite /E0 ho inE lastE => /eqP ->; rewrite eqxx.
  - by rewrite lastE r0l.
  - by move=> z; rewrite /E0 ho !inE => -> ; rewrite orbT.
  - by rewrite mem_head orbT.
split=> //.
  split=> //=.
  - by split=> // p hp; rewrite g1 // /upd pos_hi //; case: eqP => // _; rewrite range_get.
  - by split=> // p hp; rewrite g2 // /upd pos_hi //; case: eqP => // _; rewrite range_get.
  - move=> z hz; rewrite f1 (negbTE lr) /= empty ?eqxx // /M0 /upd canon_hi // ho /= subn0; by case: eqP.
  - move=> z hz; rewrite f1 eqxx /= /hid ho /= andbT /R1 /upd empty ?eqxx ?orbT //.
    case: (eqVneq z (canon y)) => [->|_]; first by rewrite (negbTE cne).
    by rewrite /R0 ho /M0 /upd; case: eqP.
  - move=> c z h; rewrite f1 ifN //; apply: contra h => /andP [-> /eqP ->] /=.
    by rewrite orbT hcy.
have hys : addr r0 hi (pinv (sib y)) = false.
  rewrite (addr_inv piK pinvK) ?port_sib // (negbTE (sib_neq hy)) /=; apply/negP => h.
  have [_ e] := port_gt n2 (pinv_port (port_sib hy)) h.
  have e' : sib y = sib hi by rewrite -(pinvK (port_sib hy)) e lastE pi_last.
  by move: hne; rewrite (sib_inj hy Phi e') eqxx.
split; last by rewrite /meas /= hys addn0; apply: ub.
rewrite /=.
have -> : [:: y; lastp] = sib (sib y) :: openB lo n false by rewrite (sibK hy).
apply: (@Gbwd lo n pinv _ _ _ _ false).
- exact: port_sib.
- by rewrite hys.
- by rewrite /addr eqxx.
- rewrite /opened ho; apply: (dec_mono R1m); rewrite /R0 ho -lastE (dec_sibS Phi dec_M0) //.
- by rewrite (dec_sibS hy R1d) /side ho.
- by rewrite (canon_sib hy) /hid (negbTE cne).
Qed.
End Start.

(** ** A complete level *)
Definition pperm (lo n : nat) (p q : iperm) (pi pinv : nat -> nat) := forall x, lo <= x < lo + n ->
  [/\ ip_get p x = Some (pi x), ip_get q x = Some (pinv x), lo <= pi x < lo + n, lo <= pinv x < lo + n & pinv (pi x) = x /\ pi (pinv x) = x].

Definition level_set (R : nat -> nat -> option bool) (left right lo n : nat) (pi np : nat -> nat) :=
  [/\ forall x, lo <= x < lo + n -> exists t, [/\ np (pos lo n x t) = pos lo n (pi x) t,
        (x - lo) %/ 2 < (if t then n %/ 2 else n - n %/ 2), (pi x - lo) %/ 2 < (if t then n %/ 2 else n - n %/ 2),
        if aw_canonical lo x == aw_canonical lo (lo + n - 1) then t = (x != lo + n - 1)
          else R left (aw_canonical lo x) = Some (topp lo x (+) t) &
        if odd n && (pi x == lo + n - 1) then t = false else R right (aw_canonical lo (pi x)) = Some (topp lo (pi x) (+) t)],
    forall c z, (c == left) || (c == right) -> lo <= z < lo + n -> z <> aw_canonical lo z -> R c z = None,
    forall c, (c == left) || (c == right) -> R c (lo + n - 1) = None &
    forall p, lo <= p < lo + n -> lo <= np p < lo + n /\ (np p < lo + n %/ 2) = (p < lo + n %/ 2)].

Lemma cover_arith lo n p (t : bool) : lo <= p < lo + n -> (if t then p < lo + n %/ 2 else lo + n %/ 2 <= p) ->
  p - lo - (if t then 0 else n %/ 2) < (if t then n %/ 2 else n - n %/ 2).
Proof. by case: t; move: (n %/ 2) => dd; slia. Qed.

Section Cover.
Variables (lo n : nat).
Hypothesis n2 : 2 < n.
Notation d := (n %/ 2).
Notation hi := (lo + n - 1)%N.
Lemma cover M : (forall x, port lo n x -> exists t, dec lo M x = Some t) -> (odd n -> dec lo M hi = Some false) ->
  forall p, lo <= p < lo + n -> exists x, [/\ port lo n x, x <= hi, dec lo M x = Some (p < lo + d) & pos lo n x (p < lo + d) = p].
Proof.
move=> hM hhi p hp.
set t := p < lo + d; set i := (p - lo - (if t then 0 else d))%N.
have hnE := nE n.
have hi1 : i < (if t then d else n - d).
  by rewrite /i /t; case: (ltnP p) => h; [exact: (cover_arith (t := true) hp h)|exact: (cover_arith (t := false) hp h)].
have hi2 : i < d + odd n.
  by move: hi1 hnE; clearbody i t; move: (n %/ 2) => dd; case: t (odd n) => -[] /=; slia.
have hpi (b : bool) : pos lo n (lo + 2 * i + b) t = p.
  by rewrite /pos idx_form /i /t; case: ltnP => h; move: hp h; move: (n %/ 2) => dd; slia.
have hx : port lo n (lo + 2 * i + false) by apply: port_form.
have hxh : lo + 2 * i + false <= hi.
  by rewrite addn0; move: hi1 hnE n2; clear hpi hx hi2; clearbody i t; move: (n %/ 2) => dd; case: t (odd n) => -[] /=; slia.
have [s es] := hM _ hx.
case: (eqVneq s t) => [e|hne]; first by exists (lo + 2 * i + false)%N; rewrite es e hpi.
exists (lo + 2 * i + true)%N.
have e1 := sib_form lo i false.
have hs : aw_other lo (lo + 2 * i + false) = (lo + 2 * i + true)%N by rewrite e1.
split; [by apply: port_form| | |exact: hpi]; last first.
  by rewrite -hs (dec_sibS hx es); congr Some; move: hne; case: (s) (t) => -[].
rewrite leqNgt; apply/negP => h.
have [ho e] := port_gt n2 (port_form lo true hi2) h.
have eh : (lo + 2 * i + false)%N = hi by apply: (sib_inj hx (port_hi lo n2)); rewrite hs.
move: es; rewrite eh (hhi ho) => -[es]; move: hne; rewrite -es /t; case: (ltnP p) => // hlt _.
by move: eh hi1 ho hnE; rewrite /t hlt addn0; move: (n %/ 2) => dd; case: (odd n) => //=; slia.
Qed.
End Cover.

Lemma level_ok left right lo n perm inve rt0 pi pinv : 2 < n -> left != right -> left < size rt0 -> right < size rt0 ->
  pperm lo n perm inve pi pinv -> (forall c z, (c == left) || (c == right) -> lo <= z < lo + n -> rf rt0 c z = None) ->
  exists st0 st rt1 np npi, [/\ aw_start left right lo (lo + n - 1) n perm rt0 = Some st0,
    aw_loop (2 * n + 1) left right lo (lo + n - 1) n perm inve st0 = Some st,
    (if odd n then Some (aw_r st) else aw_erase (aw_r st) left (lo + n - 1 - 1)) = Some rt1,
    [/\ size rt1 = size rt0, forall c z, ~~ (((c == left) || (c == right)) && (lo <= z < lo + n)) -> rf rt1 c z = rf rt0 c z &
        level_set (rf rt1) left right lo n pi np] &
    [/\ ip_wf (aw_perm st), ip_wf (aw_inv st), ip_min (aw_perm st) = lo /\ ip_max (aw_perm st) = (lo + n - 1)%N,
        ip_min (aw_inv st) = lo /\ ip_max (aw_inv st) = (lo + n - 1)%N &
        forall p, lo <= p < lo + n -> [/\ ip_get (aw_perm st) p = Some (np p), ip_get (aw_inv st) p = Some (npi p),
          lo <= np p < lo + n /\ (np p < lo + n %/ 2) = (p < lo + n %/ 2), lo <= npi p < lo + n /\ (npi p < lo + n %/ 2) = (p < lo + n %/ 2) &
          npi (np p) = p /\ np (npi p) = p]]].
Proof.
move=> n2 lr hl hr hp he.
have rg x : (lo <= x <= lo + n - 1) = (lo <= x < lo + n) by apply/idP/idP; slia.
pose ext (f : nat -> nat) x := if lo <= x < lo + n then f x else x.
have extE f x : lo <= x < lo + n -> ext f x = f x by rewrite /ext => ->.
have extN f x : port lo n x -> ~~ (lo <= x < lo + n) -> odd n /\ ext f x = x.
  by move=> h1 h2; rewrite /ext (negbTE h2); split=> //; move: h1 h2; rewrite /port; case: (odd n) => //=; rewrite addn0 => ->.
have pr x : lo <= x < lo + n -> port lo n x by rewrite -rg; apply: port_le.
have P1 x : port lo n x -> port lo n (ext pi x).
  move=> hx; case: (boolP (lo <= x < lo + n)) => h; first by rewrite extE //; apply: pr; case: (hp _ h).
  by case: (extN pi _ hx h) => _ ->.
have P2 x : port lo n x -> port lo n (ext pinv x).
  move=> hx; case: (boolP (lo <= x < lo + n)) => h; first by rewrite extE //; apply: pr; case: (hp _ h).
  by case: (extN pinv _ hx h) => _ ->.
have P3 x : port lo n x -> ext pinv (ext pi x) = x.
  move=> hx; case: (boolP (lo <= x < lo + n)) => h; last by rewrite /ext (negbTE h) (negbTE h).
  by rewrite [ext pi x]extE //; have [_ _ h1 _ [h2 _]] := hp _ h; rewrite extE.
have P4 x : port lo n x -> ext pi (ext pinv x) = x.
  move=> hx; case: (boolP (lo <= x < lo + n)) => h; last by rewrite /ext (negbTE h) (negbTE h).
  by rewrite [ext pinv x]extE //; have [_ _ _ h1 [_ h2]] := hp _ h; rewrite extE.
have P5 : odd n -> ext pi (lastp lo n) = lastp lo n.
  by move=> ho; rewrite /ext ifN // /lastp ho /=; apply/negP => /andP[_ hh]; move: hh; slia.
have G1 x : lo <= x <= lo + n - 1 -> ip_get perm x = Some (ext pi x) by rewrite rg => h; rewrite extE //; case: (hp _ h).
have G2 x : lo <= x <= lo + n - 1 -> ip_get inve x = Some (ext pinv x) by rewrite rg => h; rewrite extE //; case: (hp _ h).
have E0 c z : (c == left) || (c == right) -> lo <= z <= lo + n - 1 -> rf rt0 c z = None by rewrite rg; apply: he.
have [st0 [r [L [R [np [npi [mu [A [B [e0 Hr I [ha ho] [g m]]]]]]]]]]] := @start_ok left right lo n perm rt0 n2 lr hl hr (ext pi) (ext pinv) P1 P2 P3 P4 P5 G1 E0.
have [st [r' [L' [R' [np' [npi' [mu' [A' [B' [e1 Hr' I' all]]]]]]]]]] :=
  @loop_ok left right lo n perm inve rt0 n2 lr hl hr (ext pi) (ext pinv) P1 P2 P3 P4 P5 G1 G2 (2 * n + 1) st0 r L R np npi mu A B Hr I ha ho g m.
have Phi := port_hi lo n2.
have hidf z : hid lo n (ext pinv) r' z = odd n && (z == aw_canonical lo (lo + n - 1)).
  by rewrite /hid !all ?P2 ?port_sib //= orbF andbC.
have [L6 R6] := inv6 I'.
have L8 := inv8 I'.
have [w1 mn1 mx1 g1] := rel_np Hr'; have [w2 mn2 mx2 g2] := rel_npi Hr'.
have tot x : port lo n x -> exists t, [/\ dec lo L' x = Some t, dec lo R' (ext pi x) = Some t &
           x <= lo + n - 1 -> np' (pos lo n x t) = pos lo n (ext pi x) t /\ npi' (pos lo n (ext pi x) t) = pos lo n x t].
  by move=> hx; apply: (inv1 I' hx); apply: all.
have piD : forall x, port lo n x -> x <= lo + n - 1 -> ext pi x <= lo + n - 1 by move=> x; apply: (pi_hi n2 P1 P3 P5).
have properL x t : port lo n x -> x <= lo + n - 1 -> dec lo L' x = Some t -> (x - lo) %/ 2 < (if t then n %/ 2 else n - n %/ 2).
  by move=> hx hxh e; apply: (proper_dec n2 P5 hx hxh e (fun _ => L6)).
have properR x t : port lo n x -> x <= lo + n - 1 -> dec lo R' x = Some t -> (x - lo) %/ 2 < (if t then n %/ 2 else n - n %/ 2).
  by move=> hx hxh e; apply: (proper_dec n2 P5 hx hxh e R6).
have np_in p : lo <= p < lo + n -> [/\ lo <= np' p < lo + n, (np' p < lo + n %/ 2) = (p < lo + n %/ 2) & npi' (np' p) = p].
  move=> hpp.
  have totL x : port lo n x -> exists t, dec lo L' x = Some t by move=> hx; have [t [e _ _]] := tot _ hx; exists t.
  have [x [hx hxh ed ep]] := cover n2 totL (fun _ => L6) hpp.
  have [t [e2 e3 e4]] := tot _ hx; move: e2; rewrite ed => -[e2].
  have [e5 e6] := e4 hxh; rewrite -e2 ep in e5 e6.
  have pR := properR _ _ (P1 _ hx) (piD _ hx hxh) e3.
  rewrite -e2 in pR; rewrite e5 e6; split=> //.
    by rewrite -rg; apply: pos_range => //; apply: P1.
  by apply: pos_half => //; apply: P1.
have npi_in p : lo <= p < lo + n -> [/\ lo <= npi' p < lo + n, (npi' p < lo + n %/ 2) = (p < lo + n %/ 2) & np' (npi' p) = p].
  move=> hpp.
  have totR y : port lo n y -> exists t, dec lo R' y = Some t.
    by move=> hy; have [t [_ e _]] := tot _ (P2 _ hy); exists t; move: e; rewrite P4.
  have [y [hy hyh ed ep]] := cover n2 totR R6 hpp.
  have hx := P2 _ hy.
  have hxh : ext pinv y <= lo + n - 1.
    have hy' : lo <= y < lo + n by rewrite -rg hyh andbT; move: hy => /andP[].
    by rewrite extE //; have [_ _ _ h _] := hp _ hy'; move: h; rewrite -rg => /andP[].
  have [t [e2 e3 e4]] := tot _ hx; move: e3; rewrite P4 // ed => -[e3].
  have [e5 e6] := e4 hxh; rewrite P4 // -e3 ep in e5 e6.
  have pL := properL _ _ hx hxh e2; rewrite -e3 in pL.
  rewrite e6 e5; split=> //.
    by rewrite -rg; apply: pos_range.
  by apply: pos_half.
have ch := canon_hi lo n2.
have rL z : lo <= z < lo + n -> rf (aw_r st) left z = if odd n && (z == lo + n - 1)%N then None else L' z by rewrite -rg; apply: (rel_L Hr').
have rR z : lo <= z < lo + n -> rf (aw_r st) right z = if odd n && (z == aw_canonical lo (lo + n - 1)) then None else R' z.
  by rewrite -rg -hidf; apply: (rel_R Hr').
have [rt1 [ert s1 Lz Rz Fz]] : exists rt1, [/\ (if odd n then Some (aw_r st) else aw_erase (aw_r st) left (lo + n - 1 - 1)) = Some rt1,
    size rt1 = size rt0, forall z, lo <= z < lo + n -> rf rt1 left z = if z == aw_canonical lo (lo + n - 1) then None else L' z,
    forall z, lo <= z < lo + n -> rf rt1 right z = if odd n && (z == aw_canonical lo (lo + n - 1)) then None else R' z &
    forall c z, ~~ (((c == left) || (c == right)) && (lo <= z < lo + n)) -> rf rt1 c z = rf rt0 c z].
  have F c z : ~~ (((c == left) || (c == right)) && (lo <= z < lo + n)) -> rf (aw_r st) c z = rf rt0 c z.
    by rewrite -rg; apply: (rel_frame Hr').
  case: (boolP (odd n)) => ho'.
    exists (aw_r st); split=> //; first exact: (rel_size Hr').
    - by move=> z hz; rewrite rL // ch ho' subn0.
    by move=> z hz; rewrite rR // ho'.
  have hl' : left < size (aw_r st) by rewrite (rel_size Hr').
  have [rt1 [e s g']] := aw_erase_ok (lo + n - 1 - 1) hl'.
  exists rt1; split=> //; first by rewrite s (rel_size Hr').
  - by move=> z hz; rewrite g' eqxx /= ch (negbTE ho') /=; case: eqP => // _; rewrite rL // (negbTE ho').
  - by move=> z hz; rewrite g' eq_sym (negbTE lr) /= rR // (negbTE ho').
  move=> c z hz; rewrite g' F //; case: (boolP (_ && _)) => // /andP[/eqP ec /eqP ez]; exfalso; move: hz; rewrite ec eqxx /= ez => /negP; apply.
  by have := n2; slia.
exists st0, st, rt1, np', npi'; split=> //; last first.
  split=> // p hpp; have [a1 a2 a3] := np_in _ hpp; have [b1 b2 b3] := npi_in _ hpp.
  by split=> //; [apply: g1|apply: g2]; rewrite rg.
split=> //; split.
- move=> x hx; have px := pr _ hx; have [t [e2 e3 e4]] := tot _ px; exists t.
  have hxh : x <= lo + n - 1 by move: hx; rewrite -rg => /andP[].
  have [e5 _] := e4 hxh; have epi : ext pi x = pi x by apply: extE.
  rewrite epi in e3 e5; have [_ _ hpi _ _] := hp _ hx; have ppi := pr _ hpi.
  have hpih : pi x <= lo + n - 1 by move: hpi; rewrite -rg => /andP[].
  split=> //; [exact: (properL _ _ px hxh)|exact: (properR _ _ ppi hpih)| |].
    case: (eqVneq (aw_canonical lo x) (aw_canonical lo (lo + n - 1))) => ec.
      case: (canon_eq Phi px (esym ec)) => ex; first by move: e2; rewrite ex eqxx L6 => -[<-].
      move: e2; rewrite ex (dec_sibS Phi L6) => -[<-]; by rewrite (sib_neq Phi).
    by rewrite Lz ?(negbTE ec) ?(dec_get e2) // -rg; apply: canon_range.
  case: (boolP (odd n && (pi x == lo + n - 1)%N)) => [/andP[ho' /eqP eh]|hne]; first by move: e3; rewrite eh R6 // => -[<-].
  rewrite Rz -?rg ?canon_range // ifN ?(dec_get e3) //; apply/negP => /andP[ho' /eqP ec].
  case: (canon_eq Phi ppi (esym ec)) => ex; first by move: hne; rewrite ho' ex eqxx.
  by move: hpih; rewrite ex sib_hi // ho'; slia.
- move=> c z hc hz hne.
  have nL M : (forall z, M z <> None -> exists2 x : nat, port lo n x & z = aw_canonical lo x) -> M z = None :> option bool.
    move=> h; case e: (M z) => [b|] //; have [|x px ez] := h z; first by rewrite e.
    by case: hne; rewrite ez (canonK px).
  have [n1 n3] := L8.
  by case/orP: hc => /eqP ->; [rewrite Lz // (nL L')|rewrite Rz // (nL R')] => //; case: ifP.
- move=> c hc; have hhi : lo <= lo + n - 1 < lo + n by slia.
  have nL M : ~~ odd n -> (forall z, M z <> None -> exists2 x : nat, port lo n x & z = aw_canonical lo x) -> M (lo + n - 1)%N = None :> option bool.
    move=> ho' h; case e: (M _) => [b|] //; have [|x px ez] := h (lo + n - 1)%N; first by rewrite e.
    have : aw_canonical lo (lo + n - 1) = (lo + n - 1)%N by rewrite {1}ez (canonK px).
    by rewrite ch (negbTE ho') /=; slia.
  have [n1 n3] := L8.
  have he' : odd n -> (lo + n - 1)%N == aw_canonical lo (lo + n - 1) by move=> ho'; rewrite ch ho' subn0.
  case: (boolP (odd n)) => ho'; case/orP: hc => /eqP ->; rewrite ?Lz ?Rz //.
  - by rewrite he'.
  - by rewrite ho' he'.
  - by rewrite (nL L') //; case: ifP.
  by rewrite (nL R') //; case: ifP.
by move=> p hpp; have [a1 a2 _] := np_in _ hpp.
Qed.
