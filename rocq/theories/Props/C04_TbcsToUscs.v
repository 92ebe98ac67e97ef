(** C04: TBCS circuits reduce to equivalent USCS. *)
From mathcomp Require Import all_ssreflect all_algebra.
From Verif.Model Require Import Base LinearCombination ConstraintSystems Circuits.
From Verif.Spec Require Import LinearSpec.
From Verif.Proofs Require Import FieldTac LinearProofs BacsProofs TbcsProofs.
Set Implicit Arguments.
Unset Strict Implicit.
Unset Printing Implicit Defensive.
Import GRing.Theory.
Local Open Scope ring_scope.

Section C04.
Variable F : fieldType.
Add Field Ff_C04 : (@ffield_theory F).

(** The gate types are the 16 members of the enum. *)
Definition gate_types_ok (c : tbcs) : Prop := forall g, g \in t_gates c -> (tg_type g < 16)%N.

(** Completeness: the witness map of any input is computed without out-of-range reads, and when the circuit is
    satisfied the USCS is satisfied by it. If moreover 3 is invertible the two answers always coincide. *)
Theorem C04_witness_map (c : tbcs) (primary auxiliary : seq bool) :
  t_is_valid c -> gate_types_ok c ->
  size primary = t_primary_input_size c -> size auxiliary = t_auxiliary_input_size c ->
  exists w b b', [/\ tbcs_to_uscs_witness F c primary auxiliary = Some (bits_to_field F primary ++ w),
    t_is_satisfied c primary auxiliary = Some b,
    u_is_satisfied (tbcs_to_uscs_instance F c) (bits_to_field F primary) w = Some b',
    b -> b' & (3%:R : F) != 0 -> b = b'].
Proof.
move=> /tvalid_wf; rewrite addn0 => wf types sp sa.
have sz : size (primary ++ auxiliary) = t_num_inputs c by rewrite size_cat sp sa.
have wf' := wf; rewrite -sz in wf'.
have [w [ew sw]] := twires_exists wf'.
have [et hg] := (twiresP wf' sw).1 ew.
have [b [eb hb]] := t_is_satisfiedE wf' ew sw.
have sw' : size w = t_num_wires c by rewrite sw sz.
have e : bits_to_field F w = bits_to_field F primary ++ drop (size primary) (bits_to_field F w).
  rewrite -{1}(cat_take_drop (size primary) (bits_to_field F w)); congr (_ ++ _).
  rewrite /bits_to_field -map_take -{2}(take_size_cat auxiliary (erefl (size primary))) -et.
  by rewrite take_take // size_cat leq_addr.
have [|b' [eb' hb']] := @uscs_loopP _ (bits_to_field F w) (u_constraints (tbcs_to_uscs_instance F c)).
  by move=> l /(uscs_inst_wf wf); rewrite size_map sw'.
exists (drop (size primary) (bits_to_field F w)), b, b'; rewrite -e.
have vE g : g \in t_gates c -> [/\ (tg_left g <= size w)%N, (tg_right g <= size w)%N & (tg_output g <= size w)%N].
  move=> /(wf_tgates_mem wf) [k [k1 k2 k3 k4]]; rewrite sw' /t_num_wires.
  have lt : ((t_num_inputs c + k).+1 <= t_num_inputs c + t_num_gates c)%N by rewrite -addnS leq_add2l.
  by rewrite k2; split => //; apply: leq_trans (ltnW lt).
have hb'' : b' <-> forall g, g \in t_gates c -> tg_is_circuit_output g ->
     (fb F (tv w (tg_output g)) + 1) ^+ 2 = 1.
  rewrite hb' uscs_inst_sat; split => [[_ _ h] g gin go|h].
    by have [_ _ v3] := vE _ gin; rewrite -var_value_bits //; apply: h.
  split.
  - move=> g gin a b0 cc d ec; have [v1 v2 v3] := vE _ gin; rewrite !var_value_bits // (hg g gin).
    by apply: gate_complete => //; apply: types.
  - move=> i lt; rewrite var_value_bits ?sw' ?(ltnW lt) // /fb.
    by case: (tv w i); rewrite ?mulr1 ?mulr0 ?sub0r ?sqrrN ?expr1n // mulr2n addrK expr1n.
  - by move=> g gin go; have [_ _ v3] := vE _ gin; rewrite var_value_bits //; apply: h.
split => //.
- by rewrite /tbcs_to_uscs_witness /t_get_all_wires; move: ew; rewrite /twires => ->.
- by rewrite /u_is_satisfied -e eb'.
- by move/hb => h; apply/hb'' => g gin go; rewrite (h g gin go) /fb add0r expr1n.
move=> F3; apply/idP/idP.
  by move/hb => h; apply/hb'' => g gin go; rewrite (h g gin go) /fb add0r expr1n.
move/hb'' => h; apply/hb => g gin go; apply/negbTE/negP => tvt.
move: (h g gin go); rewrite tvt /fb => /eqP; rewrite -subr_eq0.
have -> : (1 + 1) ^+ 2 - 1 = 3%:R :> F by fring F.
by rewrite (negbTE F3).
Qed.

Hypotheses (F2 : (2%:R : F) != 0) (F3 : (3%:R : F) != 0) (F5 : (5%:R : F) != 0) (F7 : (7%:R : F) != 0).

(** Soundness against arbitrary field-valued assignments: from any assignment that satisfies the USCS for a
    boolean primary input one reads off auxiliary bits that satisfy the circuit, and all its wires except
    possibly the last one are the ones the circuit computes from those bits. *)
Theorem C04_sound (c : tbcs) (primary : seq bool) (aux' : seq F) :
  t_is_valid c -> gate_types_ok c ->
  size primary = t_primary_input_size c ->
  size aux' = (t_auxiliary_input_size c + t_num_gates c)%N ->
  u_is_satisfied (tbcs_to_uscs_instance F c) (bits_to_field F primary) aux' = Some true ->
  exists auxiliary w,
    [/\ size auxiliary = t_auxiliary_input_size c,
        t_get_all_wires c primary auxiliary = Some w,
        t_is_satisfied c primary auxiliary = Some true
      & take (t_num_wires c).-1 (bits_to_field F primary ++ aux')
        = take (t_num_wires c).-1 (bits_to_field F w)].
Proof.
move=> /tvalid_wf; rewrite addn0 => wf types sp sa' sat.
set x := bits_to_field F primary ++ aux'.
have sx : size x = t_num_wires c.
  by rewrite /x size_cat size_map sp sa' addnA.
have [|b' [eb' hb']] := @uscs_loopP _ x (u_constraints (tbcs_to_uscs_instance F c)).
  by move=> l /(uscs_inst_wf wf); rewrite sx.
move: sat; rewrite /u_is_satisfied eb' => -[bt].
have /uscs_inst_sat [hgates hbool hout] := hb'.1 bt.
set n := t_num_wires c.
(* the boolean reading of the assignment *)
pose bits := [seq v != 0 | v <- x].
have sbits : size bits = n by rewrite size_map sx.
have vb i : (i < n)%N -> var_value x i = fb F (tv bits i).
  case: i => [|i] // lt; rewrite /var_value /tv /= (nth_map 0) ?sx ?(ltnW lt) //.
  have := bool_constraint F2 (hbool i.+1 lt); rewrite /var_value /=.
  by case=> ->; rewrite /fb ?eqxx ?oner_eq0.
have takeP : take (size primary) bits = primary.
  rewrite /bits /x map_cat take_cat !size_map ltnn subnn take0 cats0.
  rewrite /bits_to_field -map_comp -[RHS]map_id; apply: eq_map => b /=.
  by case: b; rewrite ?oner_eq0 ?eqxx.
(* the wires: the bits, with the last wire recomputed *)
have [w [hw1 hw2 hw3 hw4]] : exists w, [/\ size w = n, forall i, (i < n)%N -> tv w i = tv bits i
   , forall g, g \in t_gates c -> tg_correct w g
   & take (t_num_inputs c) w = take (t_num_inputs c) bits].
  have [eg|[gs [gl eg]]] : t_gates c = [::] \/ exists gs gl, t_gates c = rcons gs gl.
    by case/lastP: (t_gates c) => [|gs gl]; [left | right; exists gs, gl].
    by exists bits; split => // g; rewrite eg.
  have nE : n = (t_num_inputs c + size gs).+1.
    by rewrite /n /t_num_wires /t_num_gates eg size_rcons addnS.
  have [wf1 o1 o2 o3] := wf_tgates_rcons (eq_ind _ (wf_tgates (t_num_inputs c)) wf _ eg).
  pose v := tbcs_table (tg_type gl) (tv bits (tg_left gl)) (tv bits (tg_right gl)).
  have st : size (take n.-1 bits) = n.-1 by rewrite size_takel // sbits leq_pred.
  have tvw i : (i < n)%N -> tv (rcons (take n.-1 bits) v) i = tv bits i.
    case: i => [|i] //= lt; rewrite /tv /= nth_rcons st.
    have lt' : (i < n.-1)%N by rewrite nE /= in lt *.
    by rewrite lt' nth_take.
  exists (rcons (take n.-1 bits) v); split => //.
  - by rewrite size_rcons st nE.
  2: by rewrite -cats1 takel_cat ?st ?nE ?leq_addr // take_take // leq_addr.
  move=> g; rewrite eg mem_rcons in_cons => /orP[/eqP->|gin].
    rewrite /tg_correct o1 -nE (tvw (tg_left gl)) ?(tvw (tg_right gl)) ?nE ?ltnS // -nE.
    by rewrite -[X in tv (rcons _ _) X](_ : (size (take n.-1 bits)).+1 = n) ?tv_rcons // st nE.
  have gin' : g \in t_gates c by rewrite eg mem_rcons in_cons gin orbT.
  have [k [k1 k2 k3 k4]] := wf_tgates_mem wf1 gin.
  have lt : ((t_num_inputs c + k).+1 < n)%N by rewrite nE ltnS -addnS leq_add2l.
  have [a [b [cc [d [ec _]]]]] := coeffsP (types g gin').
  have ll : (tg_left g < n)%N by apply: leq_ltn_trans k3 (ltnW lt).
  have lr : (tg_right g < n)%N by apply: leq_ltn_trans k4 (ltnW lt).
  have lo : (tg_output g < n)%N by rewrite k2.
  rewrite /tg_correct !tvw //.
  have := hgates g gin' _ _ _ _ ec; rewrite !vb //.
  exact: gate_sound (types g gin') ec.
(* the auxiliary input *)
have le1 : (t_num_inputs c <= n)%N by rewrite leq_addr.
have spi : (size primary <= t_num_inputs c)%N by rewrite sp leq_addr.
have tp : take (size primary) w = primary.
  by rewrite -(take_take spi) hw4 take_take.
pose aux := take (t_auxiliary_input_size c) (drop (size primary) w).
have saux : size aux = t_auxiliary_input_size c.
  by rewrite size_takel // size_drop hw1 sp /n /t_num_wires /t_num_inputs -addnA addKn leq_addr.
have epa : primary ++ aux = take (t_num_inputs c) w.
  by rewrite /t_num_inputs -sp takeD tp.
have sz : size (primary ++ aux) = t_num_inputs c by rewrite size_cat sp saux.
have wf' := wf; rewrite -sz in wf'.
have sw : size w = (size (primary ++ aux) + size (t_gates c))%N by rewrite hw1 sz.
have ew : t_get_all_wires c primary aux = Some w.
  by apply/(twiresP wf' sw); split => //; rewrite sz -epa.
exists aux, w; split => //.
  have [b [-> hb]] := t_is_satisfiedE wf' ew sw; congr Some; apply/hb => g gin go.
  rewrite (hw3 g gin).
  have [k [k1 k2 k3 k4]] := wf_tgates_mem wf gin.
  have lt : ((t_num_inputs c + k).+1 <= n)%N by rewrite -addnS leq_add2l.
  have ll : (tg_left g < n)%N by apply: leq_ltn_trans k3 lt.
  have lr : (tg_right g < n)%N by apply: leq_ltn_trans k4 lt.
  rewrite !hw2 //.
  have [a [b0 [cc [d [ec _]]]]] := coeffsP (types g gin).
  have := hgates g gin _ _ _ _ ec; rewrite (vb (tg_left g)) // (vb (tg_right g)) //.
  case: (out_constraint (hout g gin go)) => ->; last exact: gate_sound_out (types g gin) ec.
  by rewrite -[0]/(fb F false) => h; symmetry; apply: gate_sound (types g gin) ec h.
have sn (y : seq F) : size y = n -> size (take n.-1 y) = n.-1.
  by move=> e; rewrite size_takel // e leq_pred.
apply: (@eq_from_nth _ 0); first by rewrite !sn ?size_map ?hw1.
move=> i; rewrite (sn x) // => lt; rewrite !nth_take //.
have lt' : (i.+1 < n)%N by case: (n) lt.
have := vb i.+1 lt'; rewrite /var_value /= => ->.
by rewrite -hw2 // (nth_map true) // hw1; apply: ltnW.
Qed.

End C04.

(** Finding: the booleanity loop runs over variables 0..n-1 and so skips the last wire; the produced system
    has satisfying assignments whose last wire is not a bit. *)
Theorem C04_last_wire_boolean_refuted (F : fieldType) : (2%:R : F) != 0 -> (3%:R : F) != 0 ->
  exists (c : tbcs) (primary aux : seq F), t_is_valid c /\
    u_is_satisfied (tbcs_to_uscs_instance F c) primary aux = Some true /\
    exists v, [/\ v \in aux, v != 0 & v != 1].
Proof. exact: last_wire_not_boolean. Qed.

(** Over F_7 (and F_5) this gap makes the reduction unsound: NAND(0,0) = 1 is an unsatisfied output,
    yet the USCS has a satisfying assignment. (Cryptographic fields have large characteristic.) *)
Theorem C04_sound_small_field_refuted :
  exists (c : tbcs) (primary : seq bool) (aux : seq [fieldType of 'F_7]),
  [/\ t_is_valid c, gate_types_ok c,
      u_is_satisfied (tbcs_to_uscs_instance _ c) (bits_to_field _ primary) aux = Some true
    & t_is_satisfied c primary [::] = Some false].
Proof.
exists (Tbcs 2 0 [:: TbcsGate 1 2 14 3 true]), [:: false; false], [:: 5%:R].
by split => // g; rewrite inE => /eqP->.
Qed.

(** Finding: [wire_depths] indexes [depths] by wire number although the constant wire has no entry. *)
Theorem C04_wire_depths_refuted : exists c : tbcs, t_is_valid c /\ t_wire_depths c = None.
Proof. by exists (Tbcs 1 0 [:: TbcsGate 1 1 6 2 false]). Qed.

(** Non-vacuity over F_11: x3 = XOR(x1, x2) as output, satisfied by (1; 1), not by (1; 0). *)
Definition C04_circuit : tbcs :=
  Tbcs 1 1 [:: TbcsGate 1 2 6 3 true; TbcsGate 3 0 14 4 false].
Example C04_witness :
  t_is_valid C04_circuit /\ gate_types_ok C04_circuit /\
  t_is_satisfied C04_circuit [:: true] [:: true] = Some true /\
  t_is_satisfied C04_circuit [:: true] [:: false] = Some false /\
  u_is_satisfied (tbcs_to_uscs_instance [fieldType of 'F_11] C04_circuit) [:: 1] [:: 1; 0; 1] = Some true /\
  u_is_satisfied (tbcs_to_uscs_instance [fieldType of 'F_11] C04_circuit) [:: 1] [:: 0; 1; 0] = Some false.
Proof.
split => //; split; first by move=> g; rewrite !inE => /orP[] /eqP->.
by vm_decide.
Qed.

Print Assumptions C04_witness_map.
Print Assumptions C04_sound.
Print Assumptions C04_last_wire_boolean_refuted.
Print Assumptions C04_sound_small_field_refuted.
Print Assumptions C04_wire_depths_refuted.
