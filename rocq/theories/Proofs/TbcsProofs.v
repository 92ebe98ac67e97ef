From mathcomp Require Import all_ssreflect all_algebra.
From Verif.Model Require Import Base LinearCombination ConstraintSystems Circuits.
From Verif.Spec Require Import LinearSpec.
From Verif.Proofs Require Import FieldTac LinearProofs BacsProofs.
Set Implicit Arguments.
Unset Strict Implicit.
Unset Printing Implicit Defensive.
Import GRing.Theory.
Local Open Scope ring_scope.

Definition tv (w : seq bool) (i : nat) : bool := nth true (true :: w) i.

Lemma tbcs_readE w i : (i <= size w)%N -> tbcs_read w i = Some (tv w i).
Proof. by case: i => [|i] //= lt; rewrite (vgetE true) lt. Qed.

Fixpoint wf_tgates (n : nat) (gs : seq tbcs_gate) : Prop :=
  if gs is g :: gs' then
    [/\ tg_output g = n.+1, (tg_left g <= n)%N, (tg_right g <= n)%N & wf_tgates n.+1 gs']
  else True.

Lemma tvalid_wf ni i gs : tbcs_valid_loop ni i gs -> wf_tgates (ni + i) gs.
Proof.
elim: gs i => [|g gs IH] i //=; rewrite addn1.
case: eqP => //= eo; case: leqP => //= h1; case: leqP => //= h2 /IH.
by rewrite addnS => h; split => //; move: h1 h2; rewrite eo !ltnS.
Qed.

Lemma wf_tgates_mem n gs g : wf_tgates n gs -> g \in gs ->
  exists k, [/\ (k < size gs)%N, tg_output g = (n + k).+1, (tg_left g <= n + k)%N & (tg_right g <= n + k)%N].
Proof.
elim: gs n => [|h gs IH] n //= [h1 h2 h3 h4]; rewrite in_cons => /orP[/eqP->|/(IH _ h4) [k [k1 k2 k3 k4]]].
  by exists 0%N; rewrite addn0.
by exists k.+1; rewrite addnS -addSn.
Qed.

Lemma wf_tgates_rcons n gs g : wf_tgates n (rcons gs g) ->
  [/\ wf_tgates n gs, tg_output g = (n + size gs).+1, (tg_left g <= n + size gs)%N & (tg_right g <= n + size gs)%N].
Proof.
elim: gs n => [|h gs IH] n /=; first by rewrite addn0 => -[].
case=> h1 h2 h3 /IH; rewrite addSnnS => -[k1 k2 k3 k4]; by split.
Qed.

Definition tg_correct (w : seq bool) (g : tbcs_gate) : Prop :=
  tv w (tg_output g) = tbcs_table (tg_type g) (tv w (tg_left g)) (tv w (tg_right g)).

Definition twires := ofold (fun result (g : tbcs_gate) =>
  obnd (tbcs_gate_evaluate g result) (fun v => Some (rcons result v))).

Lemma twires_cons res g gs : twires res (g :: gs) =
  obnd (tbcs_gate_evaluate g res) (fun v => twires (rcons res v) gs).
Proof. by rewrite /twires /=; case: tbcs_gate_evaluate. Qed.

Lemma twires_exists gs res : wf_tgates (size res) gs ->
  exists w, twires res gs = Some w /\ size w = (size res + size gs)%N.
Proof.
elim: gs res => [|g gs IH] res /=; first by exists res; rewrite addn0.
case=> h1 h2 h3 h4; rewrite twires_cons /tbcs_gate_evaluate !tbcs_readE //=.
set v := tbcs_table _ _ _; have [|w [e s]] := IH (rcons res v); first by rewrite size_rcons.
by exists w; split => //; rewrite s size_rcons addnS.
Qed.

Lemma tv_take w n i : (i <= n)%N -> tv (take n w) i = tv w i.
Proof. by case: i => [|i] //= lt; rewrite /tv /= nth_take. Qed.

Lemma tv_rcons s v : tv (rcons s v) (size s).+1 = v.
Proof. by rewrite /tv /= nth_rcons ltnn eqxx. Qed.

Lemma twiresP gs res w : wf_tgates (size res) gs -> size w = (size res + size gs)%N ->
  (twires res gs = Some w <-> take (size res) w = res /\ forall g, g \in gs -> tg_correct w g).
Proof.
elim: gs res => [|g gs IH] res /=.
  rewrite addn0 => _ sw; split=> [[<-]|[<- _]]; last by rewrite take_oversize ?sw.
  by rewrite take_oversize.
case=> h1 h2 h3 h4 sw; rewrite twires_cons /tbcs_gate_evaluate !tbcs_readE //=.
set v := tbcs_table _ _ _.
have dv : take (size res) w = res -> v = tbcs_table (tg_type g) (tv w (tg_left g)) (tv w (tg_right g)).
  by move=> e; rewrite -(tv_take w h2) -(tv_take w h3) e.
have lt : (size res < size w)%N by rewrite sw -addSnnS leq_addr.
rewrite (IH (rcons res v)); last first.
- by rewrite sw size_rcons addnS.
- by rewrite size_rcons.
rewrite size_rcons (take_nth true) //.
split => [[e h]|[e h]].
  move/eqP: e; rewrite eqseq_rcons => /andP[/eqP e /eqP ev].
  split => // g'; rewrite in_cons => /orP[/eqP->|]; last exact: h.
  by rewrite /tg_correct h1 /tv /= ev dv.
split=> [|g' g'in]; last by apply: h; rewrite in_cons g'in orbT.
rewrite e; congr rcons.
by move: (h g (mem_head _ _)); rewrite /tg_correct h1 {1}/tv /= => ->; rewrite dv.
Qed.

Lemma t_outputs_loop (w : seq bool) gs acc : (forall g, g \in gs -> ((tg_output g).-1 < size w)%N) ->
  ofold (fun outs (g : tbcs_gate) =>
      if tg_is_circuit_output g
      then obnd (vget w (tg_output g).-1) (fun v => Some (rcons outs v))
      else Some outs) acc gs = Some (acc ++ [seq nth true w (tg_output g).-1 | g <- gs & tg_is_circuit_output g]).
Proof.
elim: gs acc => [|g gs IH] acc h /=; first by rewrite cats0.
have h' : forall g', g' \in gs -> ((tg_output g').-1 < size w)%N.
  by move=> g' g'in; apply: h; rewrite in_cons g'in orbT.
case: ifP => _ /=; last exact: IH.
by rewrite (vgetE true) h ?mem_head //= IH // cat_rcons.
Qed.

Lemma t_is_satisfiedE (c : tbcs) primary auxiliary w :
  wf_tgates (size (primary ++ auxiliary)) (t_gates c) ->
  t_get_all_wires c primary auxiliary = Some w -> size w = (size (primary ++ auxiliary) + size (t_gates c))%N ->
  exists b, t_is_satisfied c primary auxiliary = Some b /\
   (b <-> forall g, g \in t_gates c -> tg_is_circuit_output g -> tv w (tg_output g) = false).
Proof.
move=> wf ew sw; rewrite /t_is_satisfied /t_get_all_outputs ew /=.
have hin g : g \in t_gates c -> exists i, tg_output g = i.+1 /\ (i < size w)%N.
  move=> /(wf_tgates_mem wf) [k [k1 k2 _ _]]; rewrite k2; exists (size (primary ++ auxiliary) + k)%N.
  by rewrite sw ltn_add2l.
rewrite t_outputs_loop /=; last by move=> g /hin [i [-> lt]].
eexists; split; first by [].
split=> [/allP h g gin go|h].
  have [i [e lt]] := hin _ gin.
  have /h : nth true w (tg_output g).-1 \in [seq nth true w (tg_output g).-1 | g <- t_gates c & tg_is_circuit_output g].
    by apply: (map_f (fun g => nth true w (tg_output g).-1)); rewrite mem_filter go.
  by rewrite e => /negbTE.
apply/allP => v /mapP[g]; rewrite mem_filter => /andP[go gin] ->.
by have [i [e lt]] := hin _ gin; move: (h g gin go); rewrite e /= => /negbT.
Qed.

(* integer facts about the gate table *)
Definition zb (b : bool) : int := if b then 1 else 0.

Lemma type_cases (P : nat -> Prop) : (forall i, i \in iota 0 16 -> P i) -> forall t, (t < 16)%N -> P t.
Proof. by move=> h t lt; apply: h; rewrite mem_iota. Qed.

Definition gate_value (a b c d : int) (X Y : bool) (z : int) : int :=
  a * zb X + b * zb Y + c * z + d.

Definition gate_check (t : nat) : bool :=
  if tbcs_coeffs t is Some (a, b, c, d) then
    all (fun X => all (fun Y =>
      let g := tbcs_table t X Y in
      [&& gate_value a b c d X Y (zb g) ^+ 2 == 1,
          gate_value a b c d X Y (zb (~~ g)) ^+ 2 - 1 \in [:: 8%:Z; 24%:Z; -1; 3%:Z]
        & g ==> (gate_value a b c d X Y (- 2%:Z) ^+ 2 - 1 \in [:: 120%:Z; 168%:Z; 3%:Z; 15%:Z])])
      [:: true; false]) [:: true; false]
  else false.

Lemma gate_check_all : all gate_check (iota 0 16).
Proof. by vm_compute. Qed.

Section T.
Variable F : fieldType.
Implicit Types (x w : seq F).

Definition fb (b : bool) : F := if b then 1 else 0.

Lemma fbE b : fb b = (zb b)%:~R.
Proof. by case: b. Qed.

Lemma var_value_bits (w : seq bool) i : (i <= size w)%N -> var_value (bits_to_field F w) i = fb (tv w i).
Proof.
by case: i => [|i] //= lt; rewrite /var_value /= (nth_map true).
Qed.

Lemma denote_gate_lc a b c d i j k x :
  denote (tbcs_gate_lc F a b c d i j k) x =
  a%:~R * var_value x i + b%:~R * var_value x j + c%:~R * var_value x k + d%:~R.
Proof.
rewrite !lc_add_denote denote_const !denote_cons /= /denote !big_nil !addr0 !mulr1; by [].
Qed.

Lemma denote_bool_lc i x : denote (tbcs_bool_lc F i) x = 2%:R * var_value x i - 1.
Proof. by rewrite lc_sub_denote denote_const denote_cons /= mulr1 /denote big_nil addr0. Qed.

Lemma denote_output_lc i x : denote (tbcs_output_lc F i) x = var_value x i + 1.
Proof. by rewrite var_add_lc_denote denote_const. Qed.

Lemma coeffsP t : (t < 16)%N -> exists a b c d, tbcs_coeffs t = Some (a, b, c, d) /\
  forall X Y : bool, let g := tbcs_table t X Y in
    [/\ gate_value a b c d X Y (zb g) ^+ 2 = 1,
        gate_value a b c d X Y (zb (~~ g)) ^+ 2 - 1 \in [:: 8%:Z; 24%:Z; -1; 3%:Z]
      & g -> gate_value a b c d X Y (- 2%:Z) ^+ 2 - 1 \in [:: 120%:Z; 168%:Z; 3%:Z; 15%:Z]].
Proof.
move=> lt; have : gate_check t by apply: (allP gate_check_all); rewrite mem_iota.
rewrite /gate_check; case: (tbcs_coeffs t) => [[[[a b] c] d]|] //= h.
exists a, b, c, d; split => // X Y; set g := tbcs_table t X Y.
have /and3P[/eqP h1 h2 /implyP h3] : [&& gate_value a b c d X Y (zb g) ^+ 2 == 1,
          gate_value a b c d X Y (zb (~~ g)) ^+ 2 - 1 \in [:: 8%:Z; 24%:Z; -1; 3%:Z]
        & g ==> (gate_value a b c d X Y (- 2%:Z) ^+ 2 - 1 \in [:: 120%:Z; 168%:Z; 3%:Z; 15%:Z])].
  by move: h; rewrite /g {g}; case: X; case: Y; rewrite !andbT => /andP[/andP[? ?] /andP[? ?]].
by split.
Qed.

Lemma sq_int (m : int) : (m%:~R : F) ^+ 2 = 1 <-> (m ^+ 2 - 1)%:~R = 0 :> F.
Proof.
rewrite rmorphB rmorphX /=; split => [->|/eqP]; first by rewrite subrr.
by rewrite subr_eq0 => /eqP.
Qed.

Lemma intr_prod_neq0 (a b : nat) : (a%:R : F) != 0 -> (b%:R : F) != 0 -> ((a * b)%:R : F) != 0.
Proof. by move=> ha hb; rewrite natrM mulf_neq0. Qed.

Hypothesis F2 : (2%:R : F) != 0.
Hypothesis F3 : (3%:R : F) != 0.

Lemma F8 : (8%:R : F) != 0. Proof. by rewrite (intr_prod_neq0 (a := 2) (b := 4)) // (intr_prod_neq0 (a := 2) (b := 2)). Qed.
Lemma F24 : (24%:R : F) != 0. Proof. by rewrite (intr_prod_neq0 (a := 3) (b := 8)) // F8. Qed.

Lemma gate_sound t X Y Z a b c d : (t < 16)%N -> tbcs_coeffs t = Some (a, b, c, d) ->
  (a%:~R * fb X + b%:~R * fb Y + c%:~R * fb Z + d%:~R) ^+ 2 = 1 :> F -> Z = tbcs_table t X Y.
Proof.
move=> lt e; have [a' [b' [c' [d' []]]]] := coeffsP lt; rewrite e => -[<- <- <- <-] /(_ X Y) /= [_ h _].
rewrite !fbE -!rmorphM -!rmorphD /= => /sq_int /eqP hz.
apply/eqP; case: (Z =P tbcs_table t X Y) => // /eqP ne; exfalso.
have eZ : Z = ~~ tbcs_table t X Y by case: (Z) ne; case: (tbcs_table t X Y).
move: hz; rewrite eZ -/(gate_value a b c d X Y _).
move: h; rewrite !inE => /or4P[] /eqP->; apply/negP; rewrite ?rmorphN ?oppr_eq0 ?oner_neq0 //.
- exact: F8.
- exact: F24.
Qed.

Hypothesis F5 : (5%:R : F) != 0.
Hypothesis F7 : (7%:R : F) != 0.

Lemma F15 : (15%:R : F) != 0. Proof. by rewrite (intr_prod_neq0 (a := 3) (b := 5)). Qed.
Lemma F120 : (120%:R : F) != 0. Proof. by rewrite (intr_prod_neq0 (a := 8) (b := 15)) // ?F8 ?F15. Qed.
Lemma F168 : (168%:R : F) != 0. Proof. by rewrite (intr_prod_neq0 (a := 24) (b := 7)) // F24. Qed.

Lemma gate_sound_out t X Y a b c d : (t < 16)%N -> tbcs_coeffs t = Some (a, b, c, d) ->
  (a%:~R * fb X + b%:~R * fb Y + c%:~R * (- 2%:R) + d%:~R) ^+ 2 = 1 :> F -> tbcs_table t X Y = false.
Proof.
move=> lt e; have [a' [b' [c' [d' []]]]] := coeffsP lt; rewrite e => -[<- <- <- <-] /(_ X Y) /= [_ _ h].
rewrite !fbE -[- 2%:R]/((- 2%:Z)%:~R) -!rmorphM -!rmorphD /= => /sq_int /eqP hz.
apply: contraTF hz => /h.
rewrite -/(gate_value a b c d X Y _) !inE => /or4P[] /eqP-> //.
- exact: F120.
- exact: F168.
- exact: F15.
Qed.
End T.

Lemma gate_complete (F : fieldType) t X Y a b c d : (t < 16)%N -> tbcs_coeffs t = Some (a, b, c, d) ->
  (a%:~R * fb F X + b%:~R * fb F Y + c%:~R * fb F (tbcs_table t X Y) + d%:~R) ^+ 2 = 1 :> F.
Proof.
move=> lt e; have [a' [b' [c' [d' []]]]] := coeffsP lt; rewrite e => -[<- <- <- <-] /(_ X Y) /= [h _ _].
by rewrite !fbE -!rmorphM -!rmorphD /= -rmorphX -/(gate_value a b c d X Y _) h.
Qed.

Section Inst.
Variable F : fieldType.
Implicit Types (x w : seq F).

Definition gate_holds x (g : tbcs_gate) : Prop :=
  forall a b c d, tbcs_coeffs (tg_type g) = Some (a, b, c, d) ->
  (a%:~R * var_value x (tg_left g) + b%:~R * var_value x (tg_right g)
   + c%:~R * var_value x (tg_output g) + d%:~R) ^+ 2 = 1.

Lemma uscs_inst_sat (c : tbcs) x :
  (forall l, l \in u_constraints (tbcs_to_uscs_instance F c) -> denote l x ^+ 2 = 1) <->
  [/\ forall g, g \in t_gates c -> gate_holds x g,
      forall i, (i < t_num_wires c)%N -> (2%:R * var_value x i - 1) ^+ 2 = 1
    & forall g, g \in t_gates c -> tg_is_circuit_output g -> (var_value x (tg_output g) + 1) ^+ 2 = 1].
Proof.
split=> [h|[h1 h2 h3] l].
  split=> [g gin a b cc d e|i lt|g gin go].
  - rewrite -denote_gate_lc; apply: h; rewrite !mem_cat; apply/orP; left.
    apply/flatten_mapP; exists g => //; by rewrite /tbcs_gate_constraint e inE.
  - rewrite -denote_bool_lc; apply: h; rewrite !mem_cat; apply/orP; right; apply/orP; left.
    by apply/mapP; exists i => //; rewrite mem_iota add0n.
  - rewrite -denote_output_lc; apply: h; rewrite !mem_cat; apply/orP; right; apply/orP; right.
    by apply/mapP; exists g => //; rewrite mem_filter go.
rewrite !mem_cat => /orP[/flatten_mapP[g gin]|/orP[/mapP[i]|/mapP[g]]].
- rewrite /tbcs_gate_constraint; case e: (tbcs_coeffs _) => [[[[a b] cc] d]|] //.
  by rewrite inE => /eqP->; rewrite denote_gate_lc; apply: h1.
- by rewrite mem_iota add0n => lt ->; rewrite denote_bool_lc; apply: h2.
- by rewrite mem_filter => /andP[go gin] ->; rewrite denote_output_lc; apply: h3.
Qed.

Lemma uscs_inst_wf (c : tbcs) : wf_tgates (t_num_inputs c) (t_gates c) ->
  forall l, l \in u_constraints (tbcs_to_uscs_instance F c) -> vars_in l (t_num_wires c).
Proof.
move=> wf l; rewrite !mem_cat => /orP[/flatten_mapP[g gin]|/orP[/mapP[i]|/mapP[g]]].
- have [k [k1 k2 k3 k4]] := wf_tgates_mem wf gin.
  rewrite /tbcs_gate_constraint; case e: (tbcs_coeffs _) => [[[[a b] cc] d]|] //.
  rewrite inE => /eqP-> t tl.
  have : t.1 \in [seq u.1 | u <- tbcs_gate_lc F a b cc d (tg_left g) (tg_right g) (tg_output g)].
    by apply: map_f.
  rewrite lc_add_mem mem_cat lc_add_mem mem_cat lc_add_mem mem_cat !inE.
  have lt : ((t_num_inputs c + k).+1 <= t_num_wires c)%N by rewrite -addnS leq_add2l.
  case/orP => [/orP[/orP[]|]|] /eqP-> /=; rewrite ?k2 //; apply: leq_trans (ltnW lt) => //.
- rewrite mem_iota add0n => lt -> t tl.
  have : t.1 \in [seq u.1 | u <- tbcs_bool_lc F i] by apply: map_f.
  rewrite lc_add_mem mem_cat lc_scale_idx !inE => /orP[] /eqP-> //=; exact: ltnW.
- rewrite mem_filter => /andP[go gin] ->.
  have [k [k1 k2 k3 k4]] := wf_tgates_mem wf gin.
  move=> t; rewrite mem_cat !inE => /orP[] /eqP-> //=.
  by rewrite k2 -addnS leq_add2l.
Qed.

Add Field Ff_tbcs : (@ffield_theory F).

Lemma bool_constraint (v : F) : (2%:R : F) != 0 -> (2%:R * v - 1) ^+ 2 = 1 -> v = 0 \/ v = 1.
Proof.
move=> F2 h.
have : (2%:R * 2%:R) * (v * (v - 1)) == 0.
  have -> : (2%:R * 2%:R) * (v * (v - 1)) = (2%:R * v - 1) ^+ 2 - 1 by fring F.
  by rewrite h subrr.
rewrite !mulf_eq0 (negbTE F2) /= subr_eq0.
by case/orP => /eqP; [left|right].
Qed.

Lemma out_constraint (v : F) : (v + 1) ^+ 2 = 1 -> v = 0 \/ v = - 2%:R.
Proof.
move=> h; have : v * (v + 2%:R) == 0.
  have -> : v * (v + 2%:R) = (v + 1) ^+ 2 - 1 by fring F.
  by rewrite h subrr.
by rewrite mulf_eq0 addr_eq0; case/orP => /eqP; [left|right].
Qed.

Lemma last_wire_not_boolean : (2%:R : F) != 0 -> (3%:R : F) != 0 ->
  exists (c : tbcs) (primary aux : seq F), t_is_valid c /\
    u_is_satisfied (tbcs_to_uscs_instance F c) primary aux = Some true /\
    exists v, [/\ v \in aux, v != 0 & v != 1].
Proof.
move=> F2 F3; pose c := Tbcs 1 0 [:: TbcsGate 1 1 0 2 false].
have vc : t_is_valid c by [].
exists c, [:: 1], [:: - 2%:R]; split => //; split.
  have [|b [eb hb]] := @uscs_loopP F [:: 1; - 2%:R] (u_constraints (tbcs_to_uscs_instance F c)).
    by apply: uscs_inst_wf; apply: (@tvalid_wf 1 0).
  rewrite /u_is_satisfied eb; congr Some; apply/hb/uscs_inst_sat; split.
  - move=> g; rewrite inE => /eqP-> a b' cc d [<- <- <- <-].
    by rewrite /var_value /= -[0%:~R]/(0 : F) -[1%:~R]/(1 : F); fring F.
  - by case=> [|[|]] // _; rewrite /var_value /=; fring F.
  - by move=> g; rewrite inE => /eqP->.
exists (- 2%:R); rewrite inE eqxx oppr_eq0 F2; split => //.
rewrite -subr_eq0 -opprD oppr_eq0.
by rewrite -[2%:R + 1]/(2%:R + 1%:R) -natrD.
Qed.

Lemma fb_inj : injective (fb F).
Proof. by move=> [] [] //= /eqP; rewrite ?oner_eq0 // eq_sym oner_eq0. Qed.
End Inst.
