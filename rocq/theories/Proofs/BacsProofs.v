From mathcomp Require Import all_ssreflect all_algebra.
From Verif.Model Require Import Base LinearCombination ConstraintSystems Circuits.
From Verif.Spec Require Import LinearSpec.
From Verif.Proofs Require Import LinearProofs.
Set Implicit Arguments.
Unset Strict Implicit.
Unset Printing Implicit Defensive.
Import GRing.Theory.
Local Open Scope ring_scope.

Section B.
Variable F : fieldType.
Implicit Types (x w : seq F).

Lemma var_value_take (x : seq F) n i : (i <= n)%N -> var_value (take n x) i = var_value x i.
Proof. by case: i => [|i] //= lt; rewrite /var_value /= nth_take. Qed.

Lemma denote_take (l : lc F) x n : vars_in l n -> denote l (take n x) = denote l x.
Proof.
by move=> h; apply: eq_big_seq => t tl; rewrite var_value_take //; apply: h.
Qed.

Lemma denote_var i x : denote (lc_var F i) x = var_value x i.
Proof. by rewrite denote_cons /denote big_nil addr0 mul1r. Qed.

Lemma denote_const c x : denote (lc_const c) x = c.
Proof. by rewrite denote_cons /denote big_nil addr0 /= mulr1 mulr1. Qed.

Fixpoint wf_gates (n : nat) (gs : seq (bacs_gate F)) : Prop :=
  if gs is g :: gs' then
    [/\ bg_output g = n.+1, vars_in (bg_lhs g) n, vars_in (bg_rhs g) n & wf_gates n.+1 gs']
  else True.

Lemma valid_wf ni i gs : bacs_valid_loop ni i gs = Some true -> wf_gates (ni + i) gs.
Proof.
elim: gs i => [|g gs IH] i //=.
case: eqP => //= eo; rewrite add1n addSn in eo.
case hl: (lc_is_valid _ _) => [[]|] //=; case hr: (lc_is_valid _ _) => [[]|] //= /IH.
rewrite addnS => h; split => //.
  have hne : bg_lhs g <> [::] by move=> e; rewrite e in hl.
  case: ((lc_is_valid_spec (bg_output g) hne).1 hl) => _ h' t /h'; by rewrite eo.
have hne : bg_rhs g <> [::] by move=> e; rewrite e in hr.
case: ((lc_is_valid_spec (bg_output g) hne).1 hr) => _ h' t /h'; by rewrite eo.
Qed.

Lemma vars_in_le (l : lc F) m n : (m <= n)%N -> vars_in l m -> vars_in l n.
Proof. by move=> le h t /h h'; apply: leq_trans le. Qed.

Lemma wf_gates_mem n gs g : wf_gates n gs -> g \in gs ->
  exists k, [/\ (k < size gs)%N, bg_output g = (n + k).+1, vars_in (bg_lhs g) (n + k) & vars_in (bg_rhs g) (n + k)].
Proof.
elim: gs n => [|h gs IH] n //= [h1 h2 h3 h4]; rewrite in_cons => /orP[/eqP->|/(IH _ h4) [k [k1 k2 k3 k4]]].
  by exists 0%N; rewrite addn0.
by exists k.+1; rewrite addnS -addSn.
Qed.

Definition bwires := ofold (fun result (g : bacs_gate F) =>
  obnd (bacs_gate_evaluate g result) (fun v => Some (rcons result v))).

Lemma bwires_cons res g gs : bwires res (g :: gs) =
  obnd (bacs_gate_evaluate g res) (fun v => bwires (rcons res v) gs).
Proof. by rewrite /bwires /=; case: bacs_gate_evaluate. Qed.

Lemma bwires_exists gs res : wf_gates (size res) gs ->
  exists w, bwires res gs = Some w /\ size w = (size res + size gs)%N.
Proof.
elim: gs res => [|g gs IH] res /=; first by exists res; rewrite addn0.
case=> h1 h2 h3 h4; rewrite bwires_cons /bacs_gate_evaluate (lc_evaluate_some h2) (lc_evaluate_some h3) /=.
set v := _ * _; have [|w [e s]] := IH (rcons res v); first by rewrite size_rcons.
by exists w; split => //; rewrite s size_rcons addnS.
Qed.

Lemma bwiresP gs res w : wf_gates (size res) gs -> size w = (size res + size gs)%N ->
  (bwires res gs = Some w <->
   take (size res) w = res /\
   forall g, g \in gs -> var_value w (bg_output g) = denote (bg_lhs g) w * denote (bg_rhs g) w).
Proof.
elim: gs res => [|g gs IH] res /=.
  rewrite addn0 => _ sw; split=> [[<-]|[<- _]]; last by rewrite take_oversize ?sw.
  by rewrite take_oversize.
case=> h1 h2 h3 h4 sw; rewrite bwires_cons /bacs_gate_evaluate (lc_evaluate_some h2) (lc_evaluate_some h3) /=.
set v := _ * _.
have dv : take (size res) w = res -> v = denote (bg_lhs g) w * denote (bg_rhs g) w.
  by move=> e; rewrite -(denote_take w h2) -(denote_take w h3) e.
have lt : (size res < size w)%N by rewrite sw -addSnnS leq_addr.
rewrite (IH (rcons res v)); last first.
- by rewrite sw size_rcons addnS.
- by rewrite size_rcons.
rewrite size_rcons (take_nth 0) //.
split => [[e h]|[e h]].
  move/eqP: e; rewrite eqseq_rcons => /andP[/eqP e /eqP ev].
  split => // g'; rewrite in_cons => /orP[/eqP->|]; last exact: h.
  by rewrite h1 /var_value /= ev dv.
split=> [|g' g'in]; last by apply: h; rewrite in_cons g'in orbT.
rewrite e; congr rcons.
move: (h g (mem_head _ _)); rewrite h1 /var_value /= => ->.
by rewrite dv.
Qed.

Lemma b_outputs_loop (w : seq F) gs acc : (forall g, g \in gs -> ((bg_output g).-1 < size w)%N) ->
  ofold (fun outs (g : bacs_gate F) =>
      if bg_is_circuit_output g
      then obnd (vget w (bg_output g).-1) (fun v => Some (rcons outs v))
      else Some outs) acc gs = Some (acc ++ [seq nth 0 w (bg_output g).-1 | g <- gs & bg_is_circuit_output g]).
Proof.
elim: gs acc => [|g gs IH] acc h /=; first by rewrite cats0.
have h' : forall g', g' \in gs -> ((bg_output g').-1 < size w)%N.
  by move=> g' g'in; apply: h; rewrite in_cons g'in orbT.
case: ifP => _ /=; last exact: IH.
by rewrite (vgetE 0) h ?mem_head //= IH // cat_rcons.
Qed.

Lemma b_is_satisfiedE (c : bacs F) primary auxiliary w :
  wf_gates (size (primary ++ auxiliary)) (b_gates c) ->
  b_get_all_wires c primary auxiliary = Some w -> size w = (size (primary ++ auxiliary) + size (b_gates c))%N ->
  exists b, b_is_satisfied c primary auxiliary = Some b /\
   (b <-> forall g, g \in b_gates c -> bg_is_circuit_output g -> var_value w (bg_output g) = 0).
Proof.
move=> wf ew sw; rewrite /b_is_satisfied /b_get_all_outputs ew /=.
have hin g : g \in b_gates c -> exists i, bg_output g = i.+1 /\ (i < size w)%N.
  move=> /(wf_gates_mem wf) [k [k1 k2 _ _]]; rewrite k2; exists (size (primary ++ auxiliary) + k)%N.
  by rewrite sw ltn_add2l.
rewrite b_outputs_loop /=; last by move=> g /hin [i [-> lt]].
eexists; split; first by [].
split=> [/allP h g gin go|h].
  have [i [e lt]] := hin _ gin.
  have /h /eqP : nth 0 w (bg_output g).-1 \in [seq nth 0 w (bg_output g).-1 | g <- b_gates c & bg_is_circuit_output g].
    by apply: (map_f (fun g => nth 0 w (bg_output g).-1)); rewrite mem_filter go.
  by rewrite e.
apply/allP => v /mapP[g]; rewrite mem_filter => /andP[go gin] ->.
by have [i [e lt]] := hin _ gin; move: (h g gin go); rewrite e /= => /eqP.
Qed.

Lemma r1cs_inst_wf (c : bacs F) : wf_gates (b_num_inputs c) (b_gates c) ->
  forall k, k \in r_constraints (bacs_to_r1cs_instance c) ->
    [/\ vars_in (ra k) (b_num_wires c), vars_in (rb k) (b_num_wires c) & vars_in (rc k) (b_num_wires c)].
Proof.
move=> wf k /=; rewrite mem_cat => /orP[] /mapP[g gin ->]; rewrite ?mem_filter in gin.
  have [i [k1 k2 k3 k4]] := wf_gates_mem wf gin.
  split; try by apply: vars_in_le; last eassumption; rewrite leq_add2l ltnW.
  by move=> t; rewrite inE => /eqP-> /=; rewrite k2 -addnS leq_add2l.
case/andP: gin => _ gin.
have [i [k1 k2 k3 k4]] := wf_gates_mem wf gin.
split=> t; rewrite inE => /eqP-> //=.
by rewrite k2 -addnS leq_add2l.
Qed.

Lemma r1cs_inst_sat (c : bacs F) w :
  (forall k, k \in r_constraints (bacs_to_r1cs_instance c) ->
       denote (ra k) w * denote (rb k) w = denote (rc k) w) <->
  (forall g, g \in b_gates c -> var_value w (bg_output g) = denote (bg_lhs g) w * denote (bg_rhs g) w) /\
  (forall g, g \in b_gates c -> bg_is_circuit_output g -> var_value w (bg_output g) = 0).
Proof.
split=> [h|[h1 h2] k /=].
  split=> [g gin|g gin go].
    rewrite -denote_var; symmetry.
    apply: (h (R1csConstraint (bg_lhs g) (bg_rhs g) (lc_var F (bg_output g)))).
    by rewrite mem_cat (map_f (fun g => R1csConstraint _ _ _)).
  have := h (R1csConstraint (lc_const 1) (lc_var F (bg_output g)) (lc_const 0)).
  rewrite /= !denote_const denote_var mul1r; apply.
  rewrite mem_cat orbC (map_f (fun g => R1csConstraint _ (lc_var F (bg_output g)) _)) //.
  by rewrite mem_filter go.
rewrite mem_cat => /orP[] /mapP[g gin ->] /=; rewrite ?denote_var ?denote_const; first by rewrite h1.
by rewrite mem_filter in gin; case/andP: gin => go gin; rewrite mul1r h2.
Qed.

End B.
