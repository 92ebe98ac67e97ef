(** Facts about the association-list maps of Model/HashMap.v. *)
From mathcomp Require Import all_ssreflect.
From Verif.Model Require Import HashMap.
Set Implicit Arguments.
Unset Strict Implicit.
Unset Printing Implicit Defensive.

Section Map.
Variables (K T : Type) (eqb : rel K).
Hypothesis eqb_refl : reflexive eqb.
Hypothesis eqb_sym : symmetric eqb.
Hypothesis eqb_trans : transitive eqb.
Implicit Types (m : seq (K * T)).

Lemma eqb_eql a b c : eqb a b -> eqb a c = eqb b c.
Proof.
move=> h; apply/idP/idP => h'; last exact: eqb_trans h h'.
by apply: eqb_trans h'; rewrite eqb_sym.
Qed.
Lemma eqb_eqr a b c : eqb a b -> eqb c a = eqb c b.
Proof. by move=> h; rewrite !(eqb_sym c); apply: eqb_eql. Qed.

Lemma hm_find_eq m k k' : eqb k k' -> hm_find eqb m k = hm_find eqb m k'.
Proof. by move=> h; elim: m => //= -[k0 x] m ->; rewrite (eqb_eqr _ h). Qed.

Lemma hm_find_set m k x k' : hm_find eqb (hm_set eqb m k x) k' = if eqb k k' then Some x else hm_find eqb m k'.
Proof.
elim: m => [|[k0 y] m IH] //=; case: ifP => h /=.
  by rewrite (eqb_eql _ h); case: ifP.
by rewrite IH; case: ifP => // h'; case: ifP => // h''; rewrite -(eqb_eqr _ h'') h in h'.
Qed.

(** no two keys of the map are equivalent *)
Lemma hm_set_pairwise m k x : pairwise (fun a b => ~~ eqb a.1 b.1) m -> pairwise (fun a b => ~~ eqb a.1 b.1) (hm_set eqb m k x).
Proof.
elim: m => //= -[k0 y] m IH /= /andP[h1 h2]; case: ifP => h /=; first by rewrite h1.
rewrite IH // andbT; elim: m h1 {IH h2} => [_|[k1 z] m IH] /=; first by rewrite h.
by move=> /andP[h1 h2]; case: ifP => h' /=; rewrite h1 //= IH.
Qed.
End Map.

(** ** Comparing two lists by counting elements in a map *)
From mathcomp Require Import ssralg ssrint.
Import GRing.Theory.
Local Open Scope ring_scope.
Section Counter.
Variables (K : Type) (eqb : rel K).
Hypothesis eqb_refl : reflexive eqb.
Hypothesis eqb_sym : symmetric eqb.
Hypothesis eqb_trans : transitive eqb.
Implicit Types (m : seq (K * int)) (l : seq K).
Notation find := (hm_find eqb).
Notation set := (hm_set eqb).
Notation upw := (pairwise (fun a b : K * int => ~~ eqb a.1 b.1)).
Definition bag_count l := foldl (fun m t => if find m t is Some n then set m t (n + 1) else set m t 1) [::] l.
Fixpoint bag_loop m l : option (seq (K * int)) :=
  if l is t :: l' then if find m t is Some n then bag_loop (set m t (n - 1)) l' else None else Some m.

Lemma bag_countP l : upw (bag_count l) /\ forall v, find (bag_count l) v = if has (eqb v) l then Some (count (eqb v) l)%:Z else None.
Proof.
elim/last_ind: l => [|l t [u h]] //; rewrite /bag_count foldl_rcons -/(bag_count l).
split; first by case: (find _ t) => [n|]; apply: hm_set_pairwise.
move=> v; rewrite h -cats1 has_cat count_cat /= orbF addn0 [eqb v t]eqb_sym.
case: ifP => ht; rewrite (hm_find_set eqb_sym eqb_trans) h; case: ifP => hv; rewrite ?orbT ?orbF ?addn0 //.
  by rewrite PoszD; congr (Some (_%:Z + _)); apply: eq_count => w; apply: eqb_eql.
have -> : count (eqb v) l = 0%N by apply/eqP; rewrite eqn0Ngt -has_count -(eq_has (fun w => eqb_eql eqb_sym eqb_trans w hv)) ht.
by [].
Qed.
Lemma bag_loopP m l : upw m ->
  match bag_loop m l with
  | Some m' => [/\ upw m', all (fun v => find m v != None :> option int) l &
      forall v, find m' v = omap (fun n => n - (count (eqb v) l)%:Z) (find m v)]
  | None => ~~ all (fun v => find m v != None :> option int) l
  end.
Proof.
elim: l m => [|t l IH] m u /=; first by split=> // v; case: (find m v) => //= n; rewrite subr0.
case e: (find m t) => [n|] //=.
have := IH (set m t (n - 1)) (hm_set_pairwise _ _ u).
have E v : find (set m t (n - 1)) v != None = (find m v != None).
  by rewrite (hm_find_set eqb_sym eqb_trans); case: ifP => // h; rewrite -(hm_find_eq eqb_sym eqb_trans _ h) e.
rewrite (eq_all E); case: bag_loop => [m'|] //= [h1 h2 h3]; split=> // v.
rewrite h3 (hm_find_set eqb_sym eqb_trans) [eqb v t]eqb_sym; case: ifP => h; last by rewrite add0n.
by rewrite -(hm_find_eq eqb_sym eqb_trans _ h) e /= PoszD opprD addrA.
Qed.
Lemma bag_all0 m : upw m -> all (fun e => e.2 == 0) m <-> (forall v, find m v = None \/ find m v = Some 0).
Proof.
elim: m => [|[k x] m IH] /=; first by split=> // _ v; left.
move=> /andP[h1 /IH [i1 i2]]; split.
  by move=> /andP[/eqP-> /i1 h] v; case: ifP => // _; right.
move=> h; have := h k; rewrite eqb_refl => -[//|[->]]; rewrite eqxx; apply: i2 => v.
have := h v; case: ifP => // hk _; left; elim: m h1 {IH i1 h} => //= -[k1 y] m IH /andP[n1 n2].
by rewrite -(eqb_eqr eqb_sym eqb_trans _ hk) [eqb k1 k]eqb_sym (negbTE n1) IH.
Qed.
Lemma bag_big (S : Type) (idx : S) (op : Monoid.com_law idx) (F : K -> S) a b :
  (forall v, count (eqb v) a = count (eqb v) b) -> (forall x y, eqb x y -> F x = F y) ->
  \big[op/idx]_(t <- a) F t = \big[op/idx]_(t <- b) F t.
Proof.
move=> + hF; elim: a b => [|t a IH] b h.
  case: b h => // u b /(_ u) /=; by rewrite eqb_refl.
have : has (eqb t) b by rewrite has_count -h /= eqb_refl.
move=> hb; case/split_find: hb h => u s1 s2 htu _ h.
rewrite cat_rcons big_cat /= !big_cons Monoid.mulmCA (hF _ _ htu) -big_cat /=; congr (op _ _); apply: IH => v.
have := h v; rewrite cat_rcons !count_cat /= (eqb_eqr eqb_sym eqb_trans _ htu) addnCA => /eqP.
by rewrite eqn_add2l => /eqP.
Qed.
Lemma bag_eqP a b :
  (if size a != size b then false else if bag_loop (bag_count a) b is Some m' then all (fun e => e.2 == 0) m' else false) <->
  (forall v, count (eqb v) a = count (eqb v) b).
Proof.
have [ua ha] := bag_countP a; have L := bag_loopP b ua.
have F v : (find (bag_count a) v != None) = has (eqb v) a by rewrite ha; case: ifP.
rewrite (eq_all F) in L; split.
  case: ifP => // _; case: bag_loop L => [m'|] // [um' h1 h3] /(bag_all0 um') h v.
  have := h v; rewrite h3 ha; case: ifP => [_ /= [] // [] /eqP|hv _].
    by rewrite subr_eq0 => /eqP [].
  have -> : count (eqb v) a = 0%N by apply/eqP; rewrite eqn0Ngt -has_count hv.
  apply/esym/eqP; rewrite eqn0Ngt -has_count; apply/negP => hb.
  move: hv => /negP; apply; elim: b h1 hb {h3 ha F} => //= t b IH /andP[h1 h2] /orP[h'|]; last exact: IH.
  by rewrite (eq_has (fun w => eqb_eql eqb_sym eqb_trans w h')).
move=> h.
have -> : size a = size b.
  by rewrite -!sum1_size; apply: (@bag_big _ _ addn_comoid (fun=> 1%N)).
have hsub : all (fun v => has (eqb v) a) b.
  suff: forall c, (forall v, count (eqb v) c <= count (eqb v) a)%N -> all (fun v => has (eqb v) a) c by apply=> v; rewrite h.
  elim=> //= t c IH hc; rewrite has_count; have := hc t; rewrite eqb_refl => /(leq_trans _) -> //=.
  by apply: IH => v; apply: leq_trans (hc v); rewrite leq_addl.
rewrite eqxx /=; case: bag_loop L => [m' [um' _ h3]|]; last by rewrite hsub.
apply/(bag_all0 um') => v; rewrite h3 ha; case: ifP => _ /=; last by left.
by right; rewrite h subrr.
Qed.
End Counter.
