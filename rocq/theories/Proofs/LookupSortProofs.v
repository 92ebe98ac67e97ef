(** Lemmas about [sort_polynomials] of Model/LookupArgument.v. *)
From mathcomp Require Import all_ssreflect all_algebra.
From Verif.Model Require Import Base HashMap OrderedMap LookupArgument.
From Verif.Spec Require Import LookupSpec.
From Verif.Proofs Require Import NatTac DomainProofs MapProofs KzgProofs PermProofs.
Set Implicit Arguments.
Unset Strict Implicit.
Unset Printing Implicit Defensive.
Import GRing.Theory.
Local Open Scope ring_scope.

Lemma count_but_one (T : eqType) (p0 : T) (s1 s2 : seq T) : size s1 = size s2 ->
  (forall p, p != p0 -> count_mem p s1 = count_mem p s2) -> perm_eq s1 s2.
Proof.
move=> hs h; have hf : perm_eq (filter (predC1 p0) s1) (filter (predC1 p0) s2).
  apply/allP => p _ /=; rewrite !count_filter; case: (eqVneq p p0) => [->|hp].
    by rewrite !(@eq_count _ _ pred0) ?count_pred0 // => x /=; case: eqP.
  apply/eqP; rewrite !(@eq_count _ (predI (pred1 p) (predC1 p0)) (pred1 p)) ?h //; by move=> x /=; case: eqP => // ->.
have := perm_size hf; rewrite !size_filter => hc.
apply/allP => p _ /=; case: (eqVneq p p0) => [->|hp]; last by rewrite h.
have := count_predC (pred1 p0) s1; have := count_predC (pred1 p0) s2; rewrite hs -hc => <- /eqP; by rewrite eqn_add2r.
Qed.

Section Sort.
Variable F : fieldType.
Implicit Types (V E s : seq F) (x y prev : F) (cnt : F -> nat).

Lemma pairs_cons2 x y s : pairs (x :: y :: s) = (x, y) :: pairs (y :: s). Proof. by []. Qed.
Lemma pairs_cat s y t : pairs (s ++ y :: t) = pairs (rcons s y) ++ pairs (y :: t).
Proof. by elim: s => [|x [|z s] ih] //=; rewrite pairs_cons2 ih. Qed.
Lemma size_pairs s : size (pairs s) = (size s).-1.
Proof. by rewrite /pairs size_zip size_behead; apply/minn_idPr; rewrite leq_pred. Qed.

Local Arguments pairs : simpl never.

(** what the loop of [sort_polynomials] appends *)
Fixpoint emit cnt prev V : seq F :=
  if V is v :: V' then
    if v == prev then emit cnt prev V'
    else (if prev == 0 then [:: 0] else nseq (cnt prev) prev) ++ emit cnt v V'
  else if prev == 0 then [::] else nseq (cnt prev) prev.

(** runs of a suffix *)
Fixpoint runs V : bool := if V is x :: V' then runs V' && (if V' is y :: _ then [|| y == x, x == 0 | x \notin V'] else true) else true.

Lemma emit_head cnt v V : (v != 0 -> (0 < cnt v)%N) -> exists t, emit cnt v V ++ [:: 0] = v :: t.
Proof.
move=> hv; elim: V => [|w V ih] /=.
  case: eqP => [->|/eqP hv0]; first by exists [::].
  by case: (cnt v) (hv hv0) => // n _; eexists.
case: (eqVneq w v) => _ //; case: eqP => [->|/eqP hv0]; first by eexists.
by case: (cnt v) (hv hv0) => // n _; eexists.
Qed.

Notation z := ([:: 0%R] : seq F).
Lemma nseq_shift n x s : nseq n x ++ x :: s = nseq n.+1 x ++ s.
Proof. by elim: n => //= n ->. Qed.
Section Count.
Variables (tot inc : F -> nat) (p : F * F).
Hypothesis hp : p != (0, 0).
Let cnt x := (tot x + inc x)%N.
Notation c s := (count_mem p (pairs s)).
Notation b := nat_of_bool.

Lemma c_cons2 x y t : c (x :: y :: t) = (b ((x, y) == p) + c (y :: t))%N. Proof. by []. Qed.
Lemma c_run n x y t : (0 < n)%N -> c (nseq n x ++ y :: t) = ((n.-1) * b ((x, x) == p) + b ((x, y) == p) + c (y :: t))%N.
Proof.
case: n => // n _; elim: n => [|n ih]; first by rewrite mul0n add0n.
by rewrite -[nseq n.+2 x ++ _]/(x :: x :: (nseq n x ++ y :: t)) c_cons2 -[x :: _ ++ _]/(nseq n.+1 x ++ y :: t) ih !succnK mulSn !addnA.
Qed.
Lemma c_zeros n y t : (0 < n)%N -> c (nseq n 0 ++ y :: t) = c (0 :: y :: t).
Proof. by move=> h; rewrite c_run // eq_sym (negbTE hp) muln0 add0n c_cons2. Qed.

(** the number of repetitions of the pair [p] that the inputs with values among [s] give *)
Definition diag s : nat := if (p.1 == p.2) && (p.1 \in s) then inc p.1 else 0%N.

Lemma pair_eq (x y : F) : ((x, y) == p) = (x == p.1) && (y == p.2).
Proof. by case: p. Qed.
Lemma neq_and x : p.1 != p.2 -> (x == p.1) && (x == p.2) = false.
Proof. by case: (eqVneq x p.1) => // -> /negbTE. Qed.
Lemma hp0 : p.1 == p.2 -> p.1 != 0.
Proof. by move: hp; case: p => a d /=; rewrite xpair_eqE => h /eqP e; move: h; rewrite -e andbb. Qed.
Lemma emit_count r prev V :
  (0 < r)%N -> runs (prev :: V) ->
  (prev != 0 -> tot prev = (r + count_mem prev V)%N) ->
  (forall x, x != 0 -> x != prev -> x \in V -> tot x = count_mem x V) ->
  (forall x, x \in V -> x != 0 -> (0 < tot x)%N) ->
  c (emit cnt prev V ++ z) = (c (nseq r prev ++ V ++ z) + diag (prev :: V))%N.
Proof.
elim: V r prev => [|v V ih] r prev hr hruns h1 h2 h3.
  rewrite [emit _ _ _]/=; case: (eqVneq prev 0) => [->|hv].
    by rewrite cat0s c_zeros // c_cons2 /= eq_sym (negbTE hp) /diag inE; case: eqP => //= /eqP/hp0 /negbTE ->.
  rewrite addn0 in h1; rewrite !c_run ?(h1 hv) ?/cnt //= ?h1 //; last by rewrite addn_gt0 hr.
  rewrite /diag inE pair_eq; case: (eqVneq p.1 p.2) => /= [e|ne].
    rewrite -e andbb eq_sym; case: eqP => [->|_] /=; last by slia.
    by move: hr; move: (inc _) (b _) => a d; slia.
  by rewrite neq_and //= !muln0 !addn0.
move: hruns; rewrite [runs _]/=; case/andP=> hruns hr2.
rewrite [emit _ _ _]/=; case: (eqVneq v prev) => [e|hvp].
  subst v; rewrite (ih r.+1 prev) //.
  - congr (_ + _)%N; last by rewrite /diag !inE orbA orbb.
    by rewrite cat_cons nseq_shift.
  - by move=> hv; rewrite h1 //= eqxx addSnnS.
  - by move=> x hx hxp hxV; rewrite h2 ?inE ?hxV ?orbT //= eq_sym (negbTE hxp).
  - by move=> x hx; apply: h3; rewrite inE hx orbT.
have ihv : c (emit cnt v V ++ z) = (c (nseq 1 v ++ V ++ z) + diag (v :: V))%N.
  apply: ih => //.
  - move=> hv0; rewrite h2 //= ?eqxx ?mem_head //.
  - move=> x hx hxv hxV; case: (eqVneq x prev) => [e|hxp].
      by move: hr2; rewrite -e (negbTE hx) eq_sym (negbTE hxv) /= inE hxV orbT.
    by rewrite h2 ?inE ?hxV ?orbT //= eq_sym (negbTE hxv).
  - by move=> x hx; apply: h3; rewrite inE hx orbT.
have [t ht] := @emit_head cnt v V (fun hv => leq_trans (h3 v (mem_head _ _) hv) (leq_addr _ _)).
rewrite -catA; rewrite ht in ihv *; rewrite cat_cons c_run // -[v :: V ++ _]/(nseq 1 v ++ V ++ z).
case: (eqVneq prev 0) => [e|hv0].
  rewrite e eq_sym (negbTE hp) muln0 add0n cat_cons c_cons2 ihv addnA; congr (_ + _)%N.
  by rewrite /diag !inE; case: (eqVneq p.1 p.2) => //= /eqP/hp0/negbTE->.
rewrite c_run; last by rewrite /cnt h1 // -addnA addn_gt0 hr.
rewrite ihv {1}/cnt h1 //; have hnv : prev \notin v :: V by move: hr2; rewrite (negbTE hvp) (negbTE hv0).
have -> : count_mem prev (v :: V) = 0%N by apply/eqP; rewrite -leqn0 leqNgt -has_count has_pred1.
rewrite addn0 /diag [in RHS]inE; move: hnv; case: (eqVneq p.1 p.2) => [e|ne] /=; last first.
  by rewrite pair_eq neq_and //= !muln0 !add0n !addn0.
rewrite pair_eq -e andbb eq_sym; case: eqP => [->|_] /=; last by rewrite !muln0; slia.
move/negbTE => ->; move: hr; move: (inc _) (c _) (b _) => a d f; slia.
Qed.
End Count.

Lemma emit_size (tot inc : F -> nat) (ins : seq F) r prev V :
  (forall x, inc x = count_mem x ins) ->
  (0 < r)%N -> runs (prev :: V) ->
  (prev != 0 -> tot prev = (r + count_mem prev V)%N) ->
  (forall x, x != 0 -> x != prev -> x \in V -> tot x = count_mem x V) ->
  (size (emit (fun x => tot x + inc x)%N prev V) <= r + size V + count [pred x | (x != 0%R) && (x \in prev :: V)] ins)%N.
Proof.
move=> hinc; elim: V r prev => [|v V ih] r prev hr hruns h1 h2.
  rewrite [emit _ _ _]/=; case: eqP => // /eqP hv; rewrite size_nseq h1 //= hinc !addn0 leq_add2l.
  by apply: sub_count => x /= /eqP->; rewrite hv mem_head.
move: hruns; rewrite [runs _]/=; case/andP=> hruns hr2.
rewrite [emit _ _ _]/=; case: (eqVneq v prev) => [e|hvp].
  subst v; apply: leq_trans (ih r.+1 prev _ _ _ _) _ => //.
  - by move=> hv; rewrite h1 //= eqxx addSnnS.
  - by move=> x hx hxp hxV; rewrite h2 ?inE ?hxV ?orbT //= eq_sym (negbTE hxp).
  rewrite addSnnS leq_add2l; apply: sub_count => x /=; rewrite !inE => /andP[-> h]; by rewrite orbA orbb.
rewrite size_cat; have ihv : (size (emit (fun x => tot x + inc x)%N v V) <= 1 + size V + count [pred x | (x != 0%R) && (x \in v :: V)] ins)%N.
  apply: ih => //.
  - move=> hv0; rewrite h2 //= ?eqxx ?mem_head //.
  - move=> x hx hxv hxV; case: (eqVneq x prev) => [e|hxp].
      by move: hr2; rewrite -e (negbTE hx) eq_sym (negbTE hxv) /= inE hxV orbT.
    by rewrite h2 ?inE ?hxV ?orbT //= eq_sym (negbTE hxv).
case: (eqVneq prev 0) => [e|hv0].
  apply: leq_trans (leq_add (leqnn _) ihv) _; rewrite [size [:: _]]/= [size (_ :: _)]/=.
  have : (count [pred x | (x != 0%R) && (x \in v :: V)] ins <= count [pred x | (x != 0%R) && (x \in prev :: v :: V)] ins)%N.
    by apply: sub_count => x /= /andP[-> h]; rewrite inE h orbT.
  move: (count _ _) (count _ _) => a d; slia.
apply: leq_trans (leq_add (leqnn _) ihv) _; rewrite size_nseq h1 // hinc.
have hnv : prev \notin v :: V by move: hr2; rewrite (negbTE hvp) (negbTE hv0).
have -> : count_mem prev (v :: V) = 0%N by apply/eqP; rewrite -leqn0 leqNgt -has_count has_pred1.
have : (count_mem prev ins + count [pred x | (x != 0%R) && (x \in v :: V)] ins <= count [pred x | (x != 0%R) && (x \in prev :: v :: V)] ins)%N.
  rewrite -count_predUI [X in (_ + X)%N](_ : _ = 0)%N; last first.
    by apply/eqP; rewrite -leqn0 leqNgt -has_count; apply/hasPn => x _ /=; case: eqP => // ->; rewrite (negbTE hnv) andbF.
  rewrite addn0; apply: sub_count => x /= /orP[/eqP->|/andP[-> h]]; first by rewrite hv0 mem_head.
  by rewrite inE h orbT.
by rewrite [size (_ :: _)]/=; move: (count _ _) (count _ _) (count_mem _ _) => a d f; slia.
Qed.
Lemma runs_prefix x V j k : runs (x :: V) -> x != 0 -> (j < size V)%N -> nth 0 V j = x -> (k <= j)%N -> nth 0 V k = x.
Proof.
move=> hr hx; elim: V j k hr => [|y V ih] j k //= /andP[hr hh] hj e hk.
case: (eqVneq y x) hh => [eyx _|_ /=]; last first.
  by rewrite (negbTE hx) /= => /negP[]; rewrite -[in x \in _]e mem_nth.
subst y; case: j hj e hk => [|j] /= hj e hk; first by move: hk; rewrite leqn0 => /eqP->.
by case: k hk => //= k hk; apply: (ih j).
Qed.
Lemma contiguous_runs V : runs V -> contiguous V.
Proof.
elim: V => [|x V ih] hr i k j //; case/andP: (hr) => hrV _.
case: i => [|i]; case: k => [|k]; case: j => [|j] //= h1 h2 h3 e hn.
  by apply: (@runs_prefix x V j k).
exact: (ih hrV i k j).
Qed.
Lemma runs_nseq n x t : runs t -> (x == 0) || (x \notin t) -> runs (nseq n x ++ t).
Proof.
move=> ht hx; elim: n => //= n ->; case: n => [|n] /=; last by rewrite eqxx.
by case: t {ht} hx => // y t /orP[/eqP->|->]; rewrite ?eqxx !orbT.
Qed.
Lemma mem_emit (cnt : F -> nat) prev V y : y \in emit cnt prev V -> (y == 0) || (y \in prev :: V).
Proof.
elim: V prev => [|v V ih] prev /=; first by case: eqP => // _; rewrite mem_nseq => /andP[_ /eqP->]; rewrite mem_head orbT.
case: eqP => [->|_]; first by move/ih => /orP[->//|]; rewrite !inE => /orP[]->; rewrite !orbT.
rewrite mem_cat => /orP[|/ih/orP[->//|h]]; last by rewrite inE h !orbT.
case: eqP => _; first by rewrite inE => ->.
by rewrite mem_nseq => /andP[_ /eqP->]; rewrite mem_head orbT.
Qed.
Lemma runs_emit (cnt : F -> nat) prev V m : runs (prev :: V) -> runs (emit cnt prev V ++ nseq m 0).
Proof.
have hz : runs (nseq m (0 : F)) by rewrite -[nseq m 0]cats0; apply: runs_nseq; rewrite ?eqxx.
elim: V prev => [|v V ih] prev.
  move=> _ /=; case: (eqVneq prev 0) => // hp; apply: runs_nseq => //; by rewrite mem_nseq (negbTE hp) andbF.
rewrite [runs _]/= => /andP[hr hh]; rewrite [emit _ _ _]/=; case: (eqVneq v prev) => [e|hv]; first by apply: ih; rewrite -e.
rewrite -catA; case: (eqVneq prev 0) => [_|hp]; first by apply: (@runs_nseq 1); rewrite ?eqxx ?ih.
apply: runs_nseq; first exact: ih.
rewrite (negbTE hp) /= mem_cat mem_nseq (negbTE hp) andbF orbF; apply/negP => /mem_emit.
by move: hh; rewrite (negbTE hv) (negbTE hp) /= => /negbTE ->.
Qed.
Lemma runs_contiguous V : contiguous V -> runs V.
Proof.
elim: V => [|x V ih] hc //=; apply/andP; split.
  apply: ih => i k j h1 h2 h3 e hn; exact: (hc i.+1 k.+1 j.+1).
case: V hc {ih} => [|y V] // hc; case: (eqVneq y x) => //= hyx; case: (eqVneq x 0) => //= hx.
apply/negP => hin; have := hc 0%N 1%N (index x (y :: V)).+1; rewrite -index_mem in hin.
move=> /(_ isT isT hin) /=; rewrite -[nth 0 _ _]/(nth 0 (y :: V) (index x (y :: V))) nth_index -?index_mem //.
by move=> /(_ erefl hx) /eqP; rewrite (negbTE hyx).
Qed.
End Sort.

Lemma vget_mkseq (A : Type) (f : nat -> A) n i : (i < n)%N -> vget (mkseq f n) i = Some (f i).
Proof. by move=> h; rewrite (vget_nth (f i)) ?size_mkseq // nth_mkseq. Qed.
Lemma vset_mkseq (A : Type) (f : nat -> A) n i x : (i < n)%N ->
  vset (mkseq f n) i x = Some (mkseq (fun k => if k == i then x else f k) n).
Proof.
move=> h; have [|s' e] := @vset_some _ (mkseq f n) i x; first by rewrite size_mkseq.
rewrite e; congr Some; apply: (@eq_from_nth _ x); first by rewrite (size_vset e) !size_mkseq.
by move=> k; rewrite (size_vset e) size_mkseq => hk; rewrite (nth_vset _ _ e) !nth_mkseq.
Qed.

Section Layout.
Variables (F : fieldType) (n rows u : nat).
Hypotheses (u0 : (0 < u)%N) (ur : (u < rows)%N).
Implicit Types (E : seq F).

(** column [i] holds the values [i * u ... i * u + u - 1], the first [k] columns also the value after them *)
Definition layout (k : nat) E : seq (seq F) :=
  mkseq (fun i => mkseq (fun j => if (j < u)%N || (j == u) && (i < k)%N then nth 0 E (i * u + j) else 0) rows) n.
Definition lstate E : sorted_state F := (layout 0 E, size E %/ u, size E %% u)%N.

Lemma layout_nil : layout 0 [::] = nseq n (nseq rows 0).
Proof.
apply: (@eq_from_nth _ [::]); first by rewrite size_mkseq size_nseq.
move=> i; rewrite size_mkseq => hi; rewrite nth_mkseq // nth_nseq hi.
apply: (@eq_from_nth _ 0); first by rewrite size_mkseq size_nseq.
by move=> j; rewrite size_mkseq => hj; rewrite nth_mkseq // nth_nseq hj nth_nil if_same.
Qed.
Lemma append_one E x : (size E < n * u)%N -> append_to_sorted u (lstate E) x = Some (lstate (rcons E x)).
Proof.
move=> h; rewrite /append_to_sorted /lstate /=.
have hq : (size E %/ u < n)%N by rewrite ltn_divLR.
have hm : (size E %% u < u)%N by rewrite ltn_mod.
have e := divn_eq (size E) u.
rewrite vget_mkseq //= vset_mkseq //=; last by apply: ltn_trans ur.
rewrite vset_mkseq //= size_rcons.
set L := mkseq _ n.
have -> : L = layout 0 (rcons E x).
  apply: (@eq_from_nth _ [::]); first by rewrite !size_mkseq.
  move=> i; rewrite size_mkseq => hi; rewrite !nth_mkseq //.
  case: (eqVneq i (size E %/ u)%N) => [->|hne].
    apply: (@eq_from_nth _ 0); first by rewrite !size_mkseq.
    move=> j; rewrite size_mkseq => hj; rewrite !nth_mkseq // !ltn0 !andbF !orbF.
    case: (eqVneq j (size E %% u)%N) => [->|hnj].
      by rewrite hm -e nth_rcons ltnn eqxx.
    case: (ltnP j u) => // hju; rewrite nth_rcons; case: ltngtP => // hsz.
      by rewrite nth_default // ltnW.
    by case/eqP: hnj; apply/eqP; rewrite -(eqn_add2l (size E %/ u * u)) hsz -e.
  apply: (@eq_from_nth _ 0); first by rewrite !size_mkseq.
  move=> j; rewrite size_mkseq => hj; rewrite !nth_mkseq // !ltn0 !andbF !orbF.
  case: (ltnP j u) => // hju; rewrite nth_rcons; case: ltngtP => // hsz.
    by rewrite nth_default // ltnW.
  by case/eqP: hne; rewrite -hsz divnMDl // divn_small // addn0.
have d1 : ((size E).+1 = (size E %/ u) * u + (size E %% u).+1)%N by rewrite addnS -e.
congr Some; clear L; case: ltnP => hw.
  by rewrite d1 divnMDl // (divn_small hw) addn0 modnMDl (modn_small hw).
have eu : ((size E %% u).+1 = u)%N by apply/eqP; rewrite eqn_leq hm.
by rewrite d1 eu divnMDl // divnn u0 addn1 modnMDl modnn.
Qed.
Local Arguments append_to_sorted : simpl never.
Local Arguments lstate : simpl never.
Lemma append_timesE m E x : (size E + m <= n * u)%N -> append_times u m (lstate E) x = Some (lstate (E ++ nseq m x)).
Proof.
elim: m E => [|m ih] E h /=; first by rewrite cats0.
rewrite append_one /=; last by slia.
by rewrite ih ?cat_rcons // size_rcons; slia.
Qed.
Lemma sort_loop (m : count_map F) E prev V : (size E + size (emit (fun x => odflt 0%N (hm_find (@eq_op F) m x)) prev V) <= n * u)%N ->
  exists s p, ofold (sort_step u m) (lstate E, prev) V = Some (s, p) /\
    (if p != 0 then append_times u (odflt 0%N (hm_find (@eq_op F) m p)) s p else Some s) =
    Some (lstate (E ++ emit (fun x => odflt 0%N (hm_find (@eq_op F) m x)) prev V)).
Proof.
set cnt := fun x => _; elim: V E prev => [|v V ih] E prev /=.
  move=> h; exists (lstate E), prev; split=> //; case: (eqVneq prev 0) h => [_|_] h /=; first by rewrite cats0.
  by apply: append_timesE; rewrite size_nseq in h.
case: (eqVneq v prev) => [->|hv] /=; first exact: ih.
case: (eqVneq prev 0) => [->|hp]; rewrite size_cat => h.
  rewrite append_one /=; last by move: h; rewrite /=; slia.
  by rewrite -cat_rcons; apply: ih; rewrite size_rcons; move: h; rewrite /=; slia.
rewrite size_nseq in h; rewrite append_timesE /=; last by move: h; move: (size (emit _ _ _)) => a; rewrite -/(cnt prev); slia.
by rewrite catA; apply: ih; rewrite size_cat size_nseq -addnA.
Qed.
Lemma link_step E k : (k.+1 < n)%N -> link_column u (layout k E) k = Some (layout k.+1 E).
Proof.
move=> h; have r0 : (0 < rows)%N by apply: leq_trans ur.
rewrite /link_column vget_mkseq //= vget_mkseq //= u0 /= vget_mkseq //=; last by slia.
rewrite vset_mkseq //= vset_mkseq; last by slia.
congr Some; apply: (@eq_from_nth _ [::]); first by rewrite !size_mkseq.
move=> i; rewrite size_mkseq => hi; rewrite !nth_mkseq //.
case: (eqVneq i k) => [->|hne].
  apply: (@eq_from_nth _ 0); first by rewrite !size_mkseq.
  move=> j; rewrite size_mkseq => hj; rewrite !nth_mkseq // ltnSn ltnn andbF orbF andbT.
  by case: (eqVneq j u) => [->|_]; rewrite ?ltnn //= ?orbF // addn0 mulSn addnC.
apply: (@eq_from_nth _ 0); first by rewrite !size_mkseq.
move=> j; rewrite size_mkseq => hj; rewrite !nth_mkseq //.
by rewrite [(i < k.+1)%N]ltnS [(i <= k)%N]leq_eqVlt (negbTE hne).
Qed.
Lemma link_all E : (0 < n)%N -> ofold (link_column u) (layout 0 E) (iota 0 (n - 1)) = Some (layout (n - 1) E).
Proof.
move=> n0; suff H k m : (k + m <= n - 1)%N -> ofold (link_column u) (layout k E) (iota k m) = Some (layout (k + m) E).
  by rewrite H.
elim: m k => [|m ih] k h /=; first by rewrite addn0.
by rewrite link_step /= ?ih ?addSnnS //; slia.
Qed.
(** the last column ends with zero in any case *)
Lemma layout_last E : (0 < n)%N -> (size E <= n * u)%N ->
  layout (n - 1) E = mkseq (fun i => mkseq (fun j => if (j <= u)%N then nth 0 E (i * u + j) else 0) rows) n.
Proof.
move=> n0 hE; apply: (@eq_from_nth _ [::]); first by rewrite !size_mkseq.
move=> i; rewrite size_mkseq => hi; rewrite !nth_mkseq //.
apply: (@eq_from_nth _ 0); first by rewrite !size_mkseq.
move=> j; rewrite size_mkseq => hj; rewrite !nth_mkseq // [(j <= u)%N]leq_eqVlt orbC.
case: (eqVneq j u) => [->|_] //=; case: ltnP => //= hk; rewrite ltnn nth_default //.
by apply: leq_trans hE _; rewrite -mulSnr leq_mul2r; apply/orP; right; slia.
Qed.
End Layout.

Section Counts.
Variable F : fieldType.
Notation cf := (hm_find (@eq_op F)).
Lemma eqF_sym : symmetric (@eq_op F). Proof. exact: eq_sym. Qed.
Lemma eqF_trans : transitive (@eq_op F). Proof. by move=> a b c /eqP-> /eqP->. Qed.
Lemma cf_set (m : seq (F * nat)) x v y : cf (hm_set (@eq_op F) m x v) y = if x == y then Some v else cf m y.
Proof. by rewrite hm_find_set //; exact: eqF_trans. Qed.
Lemma count_valuesP (V : seq F) x : cf (foldl (@count_value F) [::] V) x = if x \in V then Some (count_mem x V) else None.
Proof.
elim/last_ind: V x => [|V v ih] x //; rewrite foldl_rcons /count_value ih mem_rcons inE -cats1 count_cat /= addn0.
case: ifP => hvV; rewrite cf_set ih eq_sym; case: (eqVneq x v) => [->|] //=; rewrite ?hvV ?addn1 ?addn0 //.
by rewrite (count_memPn _) ?hvV.
Qed.
Lemma count_inputsP (m : count_map F) (I : seq F) : (forall x, x \in I -> isSome (cf m x)) ->
  exists2 m', ofold (@count_input F) m I = Some m' & forall x n, cf m x = Some n -> cf m' x = Some (n + count_mem x I)%N.
Proof.
elim: I m => [|i I ih] m h /=; first by exists m => // x n ->; rewrite addn0.
rewrite {1}/count_input; case ei : (cf m i) (h i (mem_head _ _)) => [k|] //= _.
have [|m' h1 h2] := ih (hm_set (@eq_op F) m i k.+1).
  by move=> x hx; rewrite cf_set; case: eqP => // _; apply: h; rewrite inE hx orbT.
exists m' => // x n hx; have := h2 x; rewrite cf_set; case: (eqVneq i x) => [e|hne].
  by subst x; move: hx; rewrite ei => -[<-] /(_ _ erefl) ->; rewrite addnA addn1.
by move=> /(_ _ hx) ->.
Qed.
End Counts.
