(** C43: Pedersen verifiable secret sharing. *)
From mathcomp Require Import all_ssreflect all_algebra.
From Verif.Model Require Import Base Domain OrderedMap PolysEvaluator Pedersen.
From Verif.Proofs Require Import NatTac DomainProofs PermProofs TableProofs KzgProofs EvaluatorProofs FieldTac.
Set Implicit Arguments.
Unset Strict Implicit.
Unset Printing Implicit Defensive.
Import GRing.Theory.
Local Open Scope ring_scope.

Lemma ofold_acc (A : eqType) (V : Type) (f : V -> A -> option V) (g : V -> A -> V) (l : seq A) acc :
  {in l, forall x a, f a x = Some (g a x)} -> ofold f acc l = Some (foldl g acc l).
Proof.
elim: l acc => //= x l ih acc h; rewrite h ?mem_head //=; apply: ih => y hy a; apply: h.
by rewrite inE hy orbT.
Qed.

Lemma foldl_sum (V : zmodType) (A : Type) (c : A -> V) l a : foldl (fun s j => s + c j) a l = a + \sum_(j <- l) c j.
Proof. by elim: l a => [|j l ih] a /=; rewrite ?big_nil ?addr0 // ih big_cons addrA. Qed.
Lemma foldl_prod (R : ringType) (c : nat -> R) j l a :
  foldl (fun m i => if i == j then m else m * c i) a l = a * \prod_(i <- l | i != j) c i.
Proof.
elim: l a => [|i l ih] a /=; rewrite ?big_nil ?mulr1 // ih big_cons.
by case: eqP => //= _; rewrite mulrA.
Qed.

Section C43.
Variables (F : fieldType) (G : lmodType F).
Implicit Types (params : ped_params G) (prf : ped_proof G).

(** The field distinguishes the parties: no number in 1..n is zero in it. *)
Definition distinguishes n := forall i, (0 < i <= n)%N -> i%:R != 0 :> F.
(** The first k entries are distinct parties. *)
Definition k_parties params (idx : seq nat) :=
  [&& (0 < pd_k params)%N, (pd_k params <= size idx)%N, uniq (take (pd_k params) idx) &
      all (fun i => 0 < i <= pd_n params)%N (take (pd_k params) idx)].
(** Exchange of the roles of the two generators and of the two components of the shares. *)
Definition swap_params params := PedParams (pd_n params) (pd_k params) (pd_h params) (pd_g params).
Definition swap_proof prf := PedProof (pf_E0 prf) (pf_E prf) [seq (pk.2, pk.1) | pk : F * F <- pf_pk prf].

(** *** Loops *)
Lemma inj_parties n i j : distinguishes n -> (i <= n)%N -> (j <= n)%N -> (i%:R == j%:R :> F) = (i == j).
Proof.
move=> hn; wlog hij : i j / (i <= j)%N => [H hi hj|hi hj].
  by case: (leqP i j) => h; [apply: H | rewrite eq_sym [RHS]eq_sym; apply: H => //; exact: ltnW].
apply/eqP/eqP => [h|-> //]; apply/eqP; rewrite eqn_leq hij /= leqNgt; apply/negP => hlt.
have /hn/negP[] : (0 < j - i <= n)%N by slia.
by rewrite natrB // h subrr.
Qed.
Lemma poly_loop (V : lmodType F) (c : nat -> V) (x : F) k acc p m :
  foldl (fun (st : F * V) j => (st.1 * x, st.2 + (st.1 * x) *: c j)) (p, acc) (iota m k) =
  (p * x ^+ k, acc + \sum_(j < k) (p * x ^+ j.+1) *: c (m + j)%N).
Proof.
elim: k acc p m => [|k ih] acc p m /=; first by rewrite expr0 mulr1 big_ord0 addr0.
rewrite ih big_ord_recl expr1 addn0 addrA; congr (_, _ + _); first by rewrite exprS mulrA.
by apply: eq_bigr => j _; rewrite /bump /= -mulrA -exprS addSnnS.
Qed.
Lemma horner_split (s : seq F) k x : size s = k.+1 -> (Poly s).[x] = nth 0 s 0 + \sum_(j < k) 1 * x ^+ j.+1 * nth 0 s (1 + j).
Proof.
move=> hs; have hp : (size (Poly s) <= k.+1)%N by rewrite -hs size_Poly.
rewrite (horner_coef_wide x hp) big_ord_recl expr0 mulr1 coef_Poly; congr (_ + _).
by apply: eq_bigr => j _; rewrite coef_Poly mul1r mulrC.
Qed.
Lemma poly_evalE params s : (0 < pd_k params)%N -> size s = pd_k params ->
  ped_poly_eval params s = Some [seq (Poly s).[i%:R] | i <- iota 1 (pd_n params)].
Proof.
move=> hk hs; apply: omapM_some => i _.
rewrite (vget_nth 0) ?hs //= (@ofold_acc _ _ _ (fun st j => (st.1 * i%:R, st.2 + (st.1 * i%:R) *: (nth 0 s j : F^o)))).
  rewrite (@poly_loop [lmodType F of F^o] (nth 0 s)) /=; congr Some; symmetry.
  by apply: (@horner_split s (pd_k params).-1); rewrite prednK.
by move=> j; rewrite mem_iota => hj st; rewrite (vget_nth 0) ?hs //=; slia.
Qed.
Lemma verify_evalE params prf : size (pf_pk prf) = pd_n params -> size (pf_E prf) = (pd_k params).-1 ->
  ped_verify_eval params prf = Some (all (fun i => ped_commitment params (nth (0, 0) (pf_pk prf) i.-1) ==
     pf_E0 prf + \sum_(j < (pd_k params).-1) i%:R ^+ j.+1 *: nth 0 (pf_E prf) j) (iota 1 (pd_n params))).
Proof.
move=> h1 h2; rewrite /ped_verify_eval; set P := fun i => _ == _.
rewrite (@ofold_acc _ _ _ (fun a i => a && P i)).
  congr Some; rewrite -[RHS]andTb; elim: (iota _ _) true => [|i l ih] b /=; first by rewrite andbT.
  by rewrite ih andbA.
move=> i; rewrite mem_iota => hi a; rewrite (vget_nth (0, 0)) ?h1 /=; last by slia.
rewrite (@ofold_acc _ _ _ (fun st j => (st.1 * i%:R, st.2 + (st.1 * i%:R) *: (nth 0 (pf_E prf) j.-1 : G)))) /=.
  rewrite poly_loop /P /=; congr (Some (_ && (_ == _ + _))); apply: eq_bigr => j _.
  by rewrite mul1r.
by move=> j; rewrite mem_iota => hj st; rewrite (vget_nth 0) ?h2 //=; slia.
Qed.
Definition lam (xs : seq nat) (j : nat) : F :=
  \prod_(l < size xs | l != j :> nat) ((nth 0%N xs l)%:R * ((nth 0%N xs l)%:R - (nth 0%N xs j)%:R)^-1).
Lemma lam_at0 (xs : seq nat) (p : {poly F}) : uniq [seq x%:R : F | x <- xs] -> (size p <= size xs)%N ->
  \sum_(j < size xs) lam xs j * p.[(nth 0%N xs j)%:R] = p.[0].
Proof.
move=> u sp; pose ys := [seq x%:R : F | x <- xs].
have sy : size ys = size xs by rewrite size_map.
have ep : p = lagrange_interpolation (zip ys [seq p.[y] | y <- ys]).
  apply: (poly_ext u); rewrite ?size_map //.
    by apply: leq_trans (lagrange_size _) _; rewrite size_zip !size_map minnn.
  by move=> y /(nthP 0)[i hi <-]; rewrite lagrange_at // ?size_map // (nth_map 0).
rewrite [in RHS]ep /lagrange_interpolation size_zip !size_map minnn horner_sum; apply: eq_bigr => j _.
have ny i : (i < size xs)%N -> nth 0 ys i = (nth 0%N xs i)%:R by move=> hi; rewrite (nth_map 0%N).
rewrite hornerZ horner_prod nth_zip ?size_map //= (nth_map 0) ?sy // ny // mulrC; congr (_ * _).
apply: eq_big => [l|l hl] //; rewrite nth_zip ?size_map //= !ny // hornerZ hornerXsubC sub0r.
rewrite -[_ - (nth _ xs l)%:R]opprB invrN mulrNN mulrC //.
Qed.
Lemma message_evalE params prf idx : distinguishes (pd_n params) -> k_parties params idx -> size (pf_pk prf) = pd_n params ->
  ped_verify_eval params prf = Some true ->
  ped_message_eval params prf idx = Some (\sum_(j < pd_k params)
    lam (take (pd_k params) idx) j * (nth (0, 0) (pf_pk prf) (nth 0%N (take (pd_k params) idx) j).-1).1).
Proof.
move=> hd /and4P[hk hi hu ha] hpk hv; rewrite /ped_message_eval ltnNge hi /= hv /=.
set k := pd_k params; set xs := take k idx; have sx : size xs = k by rewrite size_takel.
have gx j : (j < k)%N -> vget idx j = Some (nth 0%N xs j) by move=> hj; rewrite (vget_nth 0%N) ?nth_take //; slia.
have rx j : (j < k)%N -> (0 < nth 0%N xs j <= pd_n params)%N by move=> hj; apply: (allP ha); rewrite mem_nth ?sx.
rewrite (@ofold_acc _ _ _ (fun sum j => sum + lam xs j * (nth (0, 0) (pf_pk prf) (nth 0%N xs j).-1).1)).
  pose c j := lam xs j * (nth (0, 0) (pf_pk prf) (nth 0%N xs j).-1).1.
  rewrite -[\sum_(j < k) _](big_mkord xpredT c) /index_iota subn0; congr Some.
  by rewrite (foldl_sum c) add0r.
move=> j; rewrite mem_iota add0n => hj a; rewrite gx //=.
rewrite (@ofold_acc _ _ _ (fun m l => if l == j then m else m * ((nth 0%N xs l)%:R * ((nth 0%N xs l)%:R - (nth 0%N xs j)%:R)^-1))) /=.
  have /andP[h1 h2] := rx j hj; rewrite h1 (vget_nth (0, 0)) /=; last by rewrite hpk; slia.
  congr (Some (_ + _ * _)); rewrite /lam sx -(big_mkord (fun l => l != j) (fun l => (nth 0%N xs l)%:R * ((nth 0%N xs l)%:R - (nth 0%N xs j)%:R)^-1)) /index_iota subn0.
  by rewrite (foldl_prod (fun l => (nth 0%N xs l)%:R * ((nth 0%N xs l)%:R - (nth 0%N xs j)%:R)^-1)) mul1r.
move=> l; rewrite mem_iota add0n => hl m; case: eqP => // /eqP nlj; rewrite gx //= ifT //.
have /andP[_ h1] := rx j hj; have /andP[_ h2] := rx l hl.
by rewrite subr_eq0 (inj_parties hd) // nth_uniq ?sx.
Qed.

(** *** The property *)
(** Honest proofs verify. *)
Theorem C43_verify params w t rs : (0 < pd_k params)%N -> size rs = (pd_k params).-1 ->
  exists2 prf, ped_proof_eval params w t rs = Some prf & ped_verify_eval params prf = Some true.
Proof.
move=> hk hs; set f := w :: [seq r.1 | r <- rs]; set g := t :: [seq r.2 | r <- rs].
have sf : size f = pd_k params by rewrite /= size_map hs prednK.
have sg : size g = pd_k params by rewrite /= size_map hs prednK.
rewrite /ped_proof_eval -/f -/g !poly_evalE //=.
rewrite (@omapM_some _ _ _ (fun i => ((Poly f).[i.+1%:R], (Poly g).[i.+1%:R]))) /=; last first.
  move=> i; rewrite mem_iota add0n => hi.
  by rewrite !(vget_nth 0) ?size_map ?size_iota //= !(nth_map 0%N) ?size_iota // nth_iota.
rewrite (@omapM_some _ _ _ (fun i => ped_commitment params (nth 0 f i, nth 0 g i))) /=; last first.
  case=> [|i]; rewrite mem_iota // => hi; rewrite !(vget_nth 0) ?size_map ?hs //; slia.
eexists; first by []; rewrite verify_evalE ?size_map ?size_iota //=; congr Some; apply/allP => i.
rewrite mem_iota => hi; rewrite (nth_map 0%N) ?size_iota; last by slia.
rewrite nth_iota; last by slia.
have -> : (0 + i.-1).+1 = i by slia.
rewrite /ped_commitment /=; apply/eqP.
rewrite (@horner_split f (pd_k params).-1) ?sf ?prednK // (@horner_split g (pd_k params).-1) ?sg ?prednK // /=.
rewrite !scalerDl !scaler_suml addrACA; congr (_ + _).
rewrite -big_split; apply: eq_bigr => j _; rewrite (nth_map 0%N) ?size_iota //= nth_iota //.
by rewrite !mul1r scalerDr !scalerA.
Qed.

(** Any k distinct parties recover the message. *)
Theorem C43_recover params w t rs prf idx : distinguishes (pd_n params) -> size rs = (pd_k params).-1 ->
  ped_proof_eval params w t rs = Some prf -> k_parties params idx -> ped_message_eval params prf idx = Some w.
Proof.
move=> hd hs hp hi; have /and4P[hk hki hu ha] := hi.
have [prf' e1 hv] := C43_verify w t hk hs; move: e1; rewrite hp => -[e1]; subst prf'.
move: hp; set f := w :: [seq r.1 | r <- rs]; set g := t :: [seq r.2 | r <- rs].
have sf : size f = pd_k params by rewrite /= size_map hs prednK.
have sg : size g = pd_k params by rewrite /= size_map hs prednK.
rewrite /ped_proof_eval -/f -/g !poly_evalE //=.
rewrite (@omapM_some _ _ _ (fun i => ((Poly f).[i.+1%:R], (Poly g).[i.+1%:R]))) /=; last first.
  move=> i; rewrite mem_iota add0n => hii.
  by rewrite !(vget_nth 0) ?size_map ?size_iota //= !(nth_map 0%N) ?size_iota // nth_iota.
case: (omapM _ _) => [E|] //= [ep]; rewrite message_evalE // -?ep /=; last by rewrite size_map size_iota.
congr Some; set xs := take _ idx.
have sx : size xs = pd_k params by rewrite size_takel.
have ew : w = (Poly f).[0] by rewrite -pevalE /= mul0r addr0.
rewrite [RHS]ew -(@lam_at0 xs (Poly f)).
- rewrite sx; apply: eq_bigr => j _; congr (_ * _).
  have /andP[h1 h2] : (0 < nth 0%N xs j <= pd_n params)%N by apply: (allP ha); rewrite mem_nth ?sx.
  by rewrite (nth_map 0%N) ?size_iota ?nth_iota //= ?add0n ?prednK //; slia.
- rewrite map_inj_in_uniq // => x y /(allP ha)/andP[_ hx] /(allP ha)/andP[_ hy] /eqP.
  by rewrite (inj_parties hd) // => /eqP.
by rewrite sx -sf size_Poly.
Qed.

(** Fewer than k parties, or an invalid proof, get the refusal value. *)
Theorem C43_refuse params prf idx : (size idx < pd_k params)%N \/ ped_verify_eval params prf = Some false ->
  ped_message_eval params prf idx = Some 0.
Proof. by rewrite /ped_message_eval => -[-> //|->]; case: ifP. Qed.

(** Verification is the equation of each share, and nothing else. *)
Theorem C43_verify_exact params prf b : size (pf_pk prf) = pd_n params -> size (pf_E prf) = (pd_k params).-1 ->
  ped_verify_eval params prf = Some b ->
  reflect (forall i, (i < pd_n params)%N -> let pk := nth (0, 0) (pf_pk prf) i in
      pk.1 *: pd_g params + pk.2 *: pd_h params =
      pf_E0 prf + \sum_(j < (pd_k params).-1) i.+1%:R ^+ j.+1 *: nth 0 (pf_E prf) j) b.
Proof.
move=> h1 h2; rewrite verify_evalE // => -[<-]; apply: (iffP allP) => [h i hi|h i].
  by apply/eqP; apply: (h i.+1); rewrite mem_iota; slia.
by rewrite mem_iota => hi; apply/eqP; have := h i.-1; rewrite prednK; [apply; slia | slia].
Qed.

(** For any accepted proof, honest or not, what k distinct parties recover, together with what they recover from the
    second components of the shares, opens the initial commitment. *)
Theorem C43_opens params prf idx : distinguishes (pd_n params) -> k_parties params idx ->
  size (pf_pk prf) = pd_n params -> size (pf_E prf) = (pd_k params).-1 -> ped_verify_eval params prf = Some true ->
  exists m u, [/\ ped_message_eval params prf idx = Some m,
                  ped_message_eval (swap_params params) (swap_proof prf) idx = Some u &
                  m *: pd_g params + u *: pd_h params = pf_E0 prf].
Proof.
move=> hd hi h1 h2 hv; have /and4P[hk hki hu ha] := hi.
have hv' : ped_verify_eval (swap_params params) (swap_proof prf) = Some true.
  move: hv; rewrite !verify_evalE ?size_map //= => -[hv]; congr Some; rewrite -[RHS]hv.
  apply: eq_in_all => i; rewrite mem_iota => hi'; rewrite (nth_map (0, 0)) ?h1; last by slia.
  by rewrite /ped_commitment /= addrC.
rewrite !message_evalE ?size_map //=; eexists; eexists; split; [by [] | by [] | ].
set xs := take _ idx; have sx : size xs = pd_k params by rewrite size_takel.
have rx (j : 'I_(pd_k params)) : (0 < nth 0%N xs j <= pd_n params)%N by apply: (allP ha); rewrite mem_nth ?sx.
have ux : uniq [seq x%:R : F | x <- xs].
  rewrite map_inj_in_uniq // => x y /(allP ha)/andP[_ hx] /(allP ha)/andP[_ hy] /eqP.
  by rewrite (inj_parties hd) // => /eqP.
rewrite !scaler_suml -big_split /=.
transitivity (\sum_(j < pd_k params) (lam xs j *: pf_E0 prf +
    \sum_(l < (pd_k params).-1) (lam xs j * (nth 0%N xs j)%:R ^+ l.+1) *: nth 0 (pf_E prf) l)).
  apply: eq_bigr => j _; have /andP[r1 r2] := rx j; rewrite (nth_map (0, 0)) ?h1 /=; last by slia.
  have hr : ((nth 0%N xs j).-1 < pd_n params)%N by slia.
  have := elimT (C43_verify_exact h1 h2 hv) isT _ hr; rewrite prednK // => /= he.
  rewrite -!scalerA -scalerDr he scalerDr scaler_sumr; congr (_ + _).
  by apply: eq_bigr => l _; rewrite scalerA.
rewrite big_split /= exchange_big /= -scaler_suml.
have l0 : \sum_(j < pd_k params) lam xs j = 1.
  have := @lam_at0 xs 1 ux; rewrite size_poly1 sx hk hornerC => /(_ isT) <-.
  by apply: eq_bigr => j _; rewrite hornerC mulr1.
rewrite l0 scale1r big1 ?addr0 // => l _; rewrite -scaler_suml.
have := @lam_at0 xs 'X^(l.+1) ux; rewrite size_polyXn sx hornerXn expr0n /= => hl.
rewrite (eq_bigr (fun j : 'I_(pd_k params) => lam xs j * ('X^(l.+1)).[(nth 0%N xs j)%:R])).
  by rewrite hl ?scale0r //; have := ltn_ord l; slia.
by move=> j _; rewrite hornerXn.
Qed.
End C43.

(** Five parties, threshold three, over F_17. *)
Example C43_witness : let F := [fieldType of 'F_17] in
  let params := PedParams 5 3 (2 : F^o) (3 : F^o) in
  [/\ distinguishes F 5, k_parties params [:: 4; 1; 5]%N &
      obnd (ped_proof_eval params 11 6 [:: (7, 3); (12, 2)]) (fun prf => ped_message_eval params prf [:: 4; 1; 5]%N) = Some (11 : F)].
Proof.
move=> F params; split.
- by move=> i; do 6 (case: i => [|i] // ; try by move=> _; vm_decide).
- by [].
by apply/eqP; vm_decide.
Qed.

Print Assumptions C43_verify.
Print Assumptions C43_recover.
Print Assumptions C43_refuse.
Print Assumptions C43_verify_exact.
Print Assumptions C43_opens.
