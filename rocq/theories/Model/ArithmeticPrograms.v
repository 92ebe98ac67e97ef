(** Model of snark/arithmetization/arithmetic_programs/{qap,sap,ssp}.hpp and
    snark/reductions/{r1cs_to_qap,r1cs_to_sap,uscs_to_ssp}.hpp.
    [dom] is the list of points of the domain returned by [make_evaluation_domain(n)], [g] the field's
    multiplicative generator; every function takes them as arguments. *)
From mathcomp Require Import all_ssreflect all_algebra.
From Verif.Model Require Import Base LinearCombination ConstraintSystems Domain.
Set Implicit Arguments.
Unset Strict Implicit.
Unset Printing Implicit Defensive.
Import GRing.Theory.
Local Open Scope ring_scope.

Section AP.
Variable F : fieldType.
Implicit Types (dom : seq F) (g t : F).

(** Enumerate a list with indices (the [for (i = 0; i < n; ++i)] loops over constraints). *)
Definition enum_idx (T : Type) (l : seq T) : seq (nat * T) := zip (iota 0 (size l)) l.

(** The values [constraints[i].X.evaluate(full)] for all i. *)
Definition eval_all (side : r1cs_constraint F -> lc F) (cs : r1cs F) (full : seq F) : option (seq F) :=
  oseq [seq lc_evaluate (side c) full | c <- r_constraints cs].

(** ** QAP *)

(** qap.hpp:183-233 [qap_instance_evaluation] *)
Record qap_eval := QapEval {
  qe_num_variables : nat; qe_degree : nat; qe_num_inputs : nat; qe_domain : seq F;
  qe_t : F; qe_At : seq F; qe_Bt : seq F; qe_Ct : seq F; qe_Ht : seq F; qe_Zt : F }.

(** qap.hpp:309-354 [qap_witness] *)
Record qap_witness := QapWitness {
  qw_num_variables : nat; qw_degree : nat; qw_num_inputs : nat;
  qw_d1 : F; qw_d2 : F; qw_d3 : F;
  qw_ABCs : seq F; qw_H : seq F }.

(** qap.hpp:235-300 [qap_instance_evaluation::is_satisfied] *)
Definition qap_eval_is_satisfied (q : qap_eval) (w : qap_witness) : bool :=
  if qe_num_variables q != qw_num_variables w then false
  else if qe_degree q != qw_degree w then false
  else if qe_num_inputs q != qw_num_inputs w then false
  else if qe_num_variables q != size (qw_ABCs w) then false
  else if (qe_degree q).+1 != size (qw_H w) then false
  else if (size (qe_At q) != (qe_num_variables q).+1) || (size (qe_Bt q) != (qe_num_variables q).+1)
          || (size (qe_Ct q) != (qe_num_variables q).+1) then false
  else if size (qe_Ht q) != (qe_degree q).+1 then false
  else if qe_Zt q != zeval (qe_domain q) (qe_t q) then false
  else
    let ans_A := head 0 (qe_At q) + qw_d1 w * qe_Zt q + inner_product (behead (qe_At q)) (qw_ABCs w) in
    let ans_B := head 0 (qe_Bt q) + qw_d2 w * qe_Zt q + inner_product (behead (qe_Bt q)) (qw_ABCs w) in
    let ans_C := head 0 (qe_Ct q) + qw_d3 w * qe_Zt q + inner_product (behead (qe_Ct q)) (qw_ABCs w) in
    let ans_H := 0 + inner_product (qe_Ht q) (qw_H w) in
    if ans_A * ans_B - ans_C != ans_H * qe_Zt q then false else true.

(** qap.hpp:73-121 [qap_instance] *)
Record qap_inst := QapInst {
  qi_num_variables : nat; qi_degree : nat; qi_num_inputs : nat; qi_domain : seq F;
  qi_A : seq (seq (nat * F)); qi_B : seq (seq (nat * F)); qi_C : seq (seq (nat * F)) }.

(** qap.hpp:123-166 [qap_instance::is_satisfied]; [t] is the random element drawn at 124 *)
Definition qap_inst_is_satisfied (q : qap_inst) (t : F) (w : qap_witness) : option bool :=
  let u := evaluate_all_lagrange_polynomials (qi_domain q) t in
  let n := (qi_num_variables q).+1 in
  obnd (eval_maps u (qi_A q) n) (fun At =>
  obnd (eval_maps u (qi_B q) n) (fun Bt =>
  obnd (eval_maps u (qi_C q) n) (fun Ct =>
  Some (qap_eval_is_satisfied
    (QapEval (qi_num_variables q) (qi_degree q) (qi_num_inputs q) (qi_domain q) t At Bt Ct
             (powers t (qi_degree q).+1) (zeval (qi_domain q) t)) w)))).

(** r1cs_to_qap.hpp:101-116 the updates [X[term.index][i] += term.coeff] of one side *)
Definition qap_map_updates (side : r1cs_constraint F -> lc F) (cs : r1cs F) : seq (nat * nat * F) :=
  flatten [seq [seq (tm.1, ic.1, tm.2) | tm <- side ic.2] | ic <- enum_idx (r_constraints cs)].

(** r1cs_to_qap.hpp:80-121 [instance_map] *)
Definition qap_instance_map dom (cs : r1cs F) : option qap_inst :=
  let nc := r_num_constraints cs in
  let empty := nseq (r_num_variables cs).+1 [::] in
  obnd (run_map_sets empty [seq (i, (nc + i)%N, 1) | i <- iota 0 (r_num_inputs cs).+1]) (fun A0 =>
  obnd (run_map_adds A0 (qap_map_updates (@ra F) cs)) (fun A =>
  obnd (run_map_adds empty (qap_map_updates (@rb F) cs)) (fun B =>
  obnd (run_map_adds empty (qap_map_updates (@rc F) cs)) (fun C =>
  Some (QapInst (r_num_variables cs) (size dom) (r_num_inputs cs) dom A B C))))).

(** r1cs_to_qap.hpp:164-176 the updates [Xt[term.index] += u[i] * term.coeff] of one side *)
Definition qap_updates (side : r1cs_constraint F -> lc F) (cs : r1cs F) (u : seq F) : seq (nat * F) :=
  flatten [seq [seq (tm.1, nth 0 u ic.1 * tm.2) | tm <- side ic.2] | ic <- enum_idx (r_constraints cs)].

(** r1cs_to_qap.hpp:138-187 [instance_map_with_evaluation] *)
Definition qap_instance_map_with_evaluation dom (cs : r1cs F) (t : F) : option qap_eval :=
  let nc := r_num_constraints cs in
  let zeros := nseq (r_num_variables cs).+1 0 in
  let u := evaluate_all_lagrange_polynomials dom t in
  obnd (run_sets zeros [seq (i, nth 0 u (nc + i)%N) | i <- iota 0 (r_num_inputs cs).+1]) (fun At0 =>
  obnd (run_adds At0 (qap_updates (@ra F) cs u)) (fun At =>
  obnd (run_adds zeros (qap_updates (@rb F) cs u)) (fun Bt =>
  obnd (run_adds zeros (qap_updates (@rc F) cs u)) (fun Ct =>
  Some (QapEval (r_num_variables cs) (size dom) (r_num_inputs cs) dom t At Bt Ct
                (powers t (size dom).+1) (zeval dom t)))))).

(** The shared tail of the three witness maps: values on the coset divided by Z, back to coefficients.
    (r1cs_to_qap.hpp:308-315, r1cs_to_sap.hpp:440-449, uscs_to_ssp.hpp:226-233) *)
Definition quotient_from_coset dom g (vals : seq F) : seq F :=
  multiply_by_coset (inverse_fft dom (divide_by_z_on_coset dom g vals)) g^-1.

(** r1cs_to_qap.hpp:219-325 [witness_map] (the assert at 227 is a precondition) *)
Definition qap_witness_map dom g (cs : r1cs F) (primary auxiliary : seq F) (d1 d2 d3 : F) : option qap_witness :=
  let m := size dom in
  let nc := r_num_constraints cs in
  let full := primary ++ auxiliary in
  obnd (run_sets (nseq m 0)
         [seq ((i + nc)%N, if i is i'.+1 then nth 0 full i' else 1) | i <- iota 0 (r_num_inputs cs).+1]) (fun aA0 =>
  obnd (eval_all (@ra F) cs full) (fun ea =>
  obnd (eval_all (@rb F) cs full) (fun eb =>
  obnd (run_adds aA0 (enum_idx ea)) (fun aA1 =>
  obnd (run_adds (nseq m 0) (enum_idx eb)) (fun aB1 =>
  let aA := inverse_fft dom aA1 in
  let aB := inverse_fft dom aB1 in
  let H0 := [seq d2 * nth 0 aA i + d1 * nth 0 aB i | i <- iota 0 m] ++ [:: 0] in
  obnd (run_adds H0 [:: (0%N, - d3)]) (fun H1 =>
  let H2 := add_poly_z dom (d1 * d2) H1 in
  let cA := fft dom (multiply_by_coset aA g) in
  let cB := fft dom (multiply_by_coset aB g) in
  let H_tmp := [seq nth 0 cA i * nth 0 cB i | i <- iota 0 m] in
  obnd (eval_all (@rc F) cs full) (fun ec =>
  obnd (run_adds (nseq m 0) (enum_idx ec)) (fun aC1 =>
  let cC := fft dom (multiply_by_coset (inverse_fft dom aC1) g) in
  let H_tmp2 := quotient_from_coset dom g [seq nth 0 H_tmp i - nth 0 cC i | i <- iota 0 m] in
  obnd (run_adds H2 [seq (i, nth 0 H_tmp2 i) | i <- iota 0 m]) (fun H =>
  Some (QapWitness (r_num_variables cs) m (r_num_inputs cs) d1 d2 d3 full H)))))))))).

(** ** SAP *)

(** sap.hpp:176-218 [sap_instance_evaluation] *)
Record sap_eval := SapEval {
  se_num_variables : nat; se_degree : nat; se_num_inputs : nat; se_domain : seq F;
  se_t : F; se_At : seq F; se_Ct : seq F; se_Ht : seq F; se_Zt : F }.

(** sap.hpp:284-300 [sap_witness] *)
Record sap_witness := SapWitness {
  sw_num_variables : nat; sw_degree : nat; sw_num_inputs : nat;
  sw_d1 : F; sw_d2 : F; sw_ACs : seq F; sw_H : seq F }.

(** sap.hpp:219-276 [is_satisfied] *)
Definition sap_eval_is_satisfied (q : sap_eval) (w : sap_witness) : bool :=
  if se_num_variables q != sw_num_variables w then false
  else if se_degree q != sw_degree w then false
  else if se_num_inputs q != sw_num_inputs w then false
  else if se_num_variables q != size (sw_ACs w) then false
  else if (se_degree q).+1 != size (sw_H w) then false
  else if (size (se_At q) != (se_num_variables q).+1) || (size (se_Ct q) != (se_num_variables q).+1) then false
  else if size (se_Ht q) != (se_degree q).+1 then false
  else if se_Zt q != zeval (se_domain q) (se_t q) then false
  else
    let ans_A := head 0 (se_At q) + sw_d1 w * se_Zt q + inner_product (behead (se_At q)) (sw_ACs w) in
    let ans_C := head 0 (se_Ct q) + sw_d2 w * se_Zt q + inner_product (behead (se_Ct q)) (sw_ACs w) in
    let ans_H := 0 + inner_product (se_Ht q) (sw_H w) in
    if ans_A * ans_A - ans_C != ans_H * se_Zt q then false else true.

(** r1cs_to_sap.hpp:71-74 [times_four] *)
Definition times_four (x : F) : F := let times_two := x + x in times_two + times_two.

(** r1cs_to_sap.hpp:81-93 size requested from [make_evaluation_domain] *)
Definition sap_domain_size (cs : r1cs F) : nat := (2 * r_num_constraints cs + 2 * r_num_inputs cs + 1)%N.

(** r1cs_to_sap.hpp:208 number of SAP variables *)
Definition sap_num_variables (cs : r1cs F) : nat :=
  (r_num_variables cs + r_num_constraints cs + r_num_inputs cs)%N.

(** r1cs_to_sap.hpp:204-282 [instance_map_with_evaluation]: updates of At, in order *)
Definition sap_A_updates (cs : r1cs F) (u : seq F) : seq (nat * F) :=
  let U i := nth 0 u i in
  let eco := (2 * r_num_constraints cs)%N in
  flatten [seq let i := ic.1 in let c := ic.2 in
     flatten [seq [:: (tm.1, U (2 * i)%N * tm.2); (tm.1, U (2 * i + 1)%N * tm.2)] | tm <- ra c]
     ++ flatten [seq [:: (tm.1, U (2 * i)%N * tm.2); (tm.1, - (U (2 * i + 1)%N * tm.2))] | tm <- rb c]
     | ic <- enum_idx (r_constraints cs)]
  ++ (0%N, U eco) ::
  flatten [seq [:: (i, U (eco + 2 * i - 1)%N); (0%N, U (eco + 2 * i - 1)%N);
                   (i, U (eco + 2 * i)%N); (0%N, - U (eco + 2 * i)%N)]
          | i <- iota 1 (r_num_inputs cs)].

(** ... and of Ct *)
Definition sap_C_updates (cs : r1cs F) (u : seq F) : seq (nat * F) :=
  let U i := nth 0 u i in
  let eco := (2 * r_num_constraints cs)%N in
  let extra_var_offset := (r_num_variables cs + 1)%N in
  let extra_var_offset2 := (r_num_variables cs + r_num_constraints cs)%N in
  flatten [seq let i := ic.1 in let c := ic.2 in
     [seq (tm.1, times_four (U (2 * i)%N * tm.2)) | tm <- rc c]
     ++ [:: ((extra_var_offset + i)%N, U (2 * i)%N); ((extra_var_offset + i)%N, U (2 * i + 1)%N)]
     | ic <- enum_idx (r_constraints cs)]
  ++ (0%N, U eco) ::
  flatten [seq [:: (i, times_four (U (eco + 2 * i - 1)%N)); ((extra_var_offset2 + i)%N, U (eco + 2 * i - 1)%N);
                   ((extra_var_offset2 + i)%N, U (eco + 2 * i)%N)]
          | i <- iota 1 (r_num_inputs cs)].

Definition sap_instance_map_with_evaluation dom (cs : r1cs F) (t : F) : option sap_eval :=
  let n := sap_num_variables cs in
  let u := evaluate_all_lagrange_polynomials dom t in
  obnd (run_adds (nseq n.+1 0) (sap_A_updates cs u)) (fun At =>
  obnd (run_adds (nseq n.+1 0) (sap_C_updates cs u)) (fun Ct =>
  Some (SapEval n (size dom) (r_num_inputs cs) dom t At Ct (powers t (size dom).+1) (zeval dom t)))).

(** r1cs_to_sap.hpp:324-358 the assignment extended by the extra variables. The evaluations use the assignment
    as extended so far (343-345), like the C++. *)
Definition sap_extend (cs : r1cs F) (full0 : seq F) : option (seq F) :=
  obnd (ofold (fun full c =>
          obnd (lc_evaluate (ra c) full) (fun a =>
          obnd (lc_evaluate (rb c) full) (fun b =>
          let extra := a - b in Some (rcons full (extra * extra)))))
        full0 (r_constraints cs)) (fun full1 =>
  ofold (fun full i => obnd (vget full i.-1) (fun x => let extra := x - 1 in Some (rcons full (extra * extra))))
        full1 (iota 1 (r_num_inputs cs))).

(** r1cs_to_sap.hpp:360-383 updates of aA *)
Definition sap_aA_updates (cs : r1cs F) (full ea eb : seq F) : seq (nat * F) :=
  let eco := (2 * r_num_constraints cs)%N in
  flatten [seq [:: ((2 * i)%N, nth 0 ea i); ((2 * i)%N, nth 0 eb i);
                   ((2 * i + 1)%N, nth 0 ea i); ((2 * i + 1)%N, - nth 0 eb i)]
          | i <- iota 0 (r_num_constraints cs)]
  ++ (eco, 1) ::
  flatten [seq [:: ((eco + 2 * i - 1)%N, nth 0 full i.-1); ((eco + 2 * i - 1)%N, 1);
                   ((eco + 2 * i)%N, nth 0 full i.-1); ((eco + 2 * i)%N, - 1)]
          | i <- iota 1 (r_num_inputs cs)].

(** r1cs_to_sap.hpp:413-433 updates of aC *)
Definition sap_aC_updates (cs : r1cs F) (full ec : seq F) : seq (nat * F) :=
  let eco := (2 * r_num_constraints cs)%N in
  let extra_var_offset := (r_num_variables cs + 1)%N in
  let extra_var_offset2 := (r_num_variables cs + r_num_constraints cs)%N in
  flatten [seq [:: ((2 * i)%N, times_four (nth 0 ec i)); ((2 * i)%N, nth 0 full (extra_var_offset + i - 1)%N);
                   ((2 * i + 1)%N, nth 0 full (extra_var_offset + i - 1)%N)]
          | i <- iota 0 (r_num_constraints cs)]
  ++ (eco, 1) ::
  flatten [seq [:: ((eco + 2 * i - 1)%N, times_four (nth 0 full i.-1));
                   ((eco + 2 * i - 1)%N, nth 0 full (extra_var_offset2 + i - 1)%N);
                   ((eco + 2 * i)%N, nth 0 full (extra_var_offset2 + i - 1)%N)]
          | i <- iota 1 (r_num_inputs cs)].

(** r1cs_to_sap.hpp:313-472 [witness_map] *)
Definition sap_witness_map dom g (cs : r1cs F) (primary auxiliary : seq F) (d1 d2 : F) : option sap_witness :=
  let m := size dom in
  obnd (sap_extend cs (primary ++ auxiliary)) (fun full =>
  obnd (eval_all (@ra F) cs full) (fun ea =>
  obnd (eval_all (@rb F) cs full) (fun eb =>
  obnd (eval_all (@rc F) cs full) (fun ec =>
  obnd (run_adds (nseq m 0) (sap_aA_updates cs full ea eb)) (fun aA1 =>
  let aA := inverse_fft dom aA1 in
  let H0 := [seq d1 * nth 0 aA i + d1 * nth 0 aA i | i <- iota 0 m] ++ [:: 0] in
  obnd (run_adds H0 [:: (0%N, - d2)]) (fun H1 =>
  let H2 := add_poly_z dom (d1 * d1) H1 in
  let cA := fft dom (multiply_by_coset aA g) in
  let H_tmp := [seq nth 0 cA i * nth 0 cA i | i <- iota 0 m] in
  obnd (run_adds (nseq m 0) (sap_aC_updates cs full ec)) (fun aC1 =>
  let cC := fft dom (multiply_by_coset (inverse_fft dom aC1) g) in
  let H_tmp2 := quotient_from_coset dom g [seq nth 0 H_tmp i - nth 0 cC i | i <- iota 0 m] in
  obnd (run_adds H2 [seq (i, nth 0 H_tmp2 i) | i <- iota 0 m]) (fun H =>
  Some (SapWitness (sap_num_variables cs) m (r_num_inputs cs) d1 d2 full H))))))))).

(** ** SSP *)

(** ssp.hpp:160-206 [ssp_instance_evaluation] *)
Record ssp_eval := SspEval {
  pe_num_variables : nat; pe_degree : nat; pe_num_inputs : nat; pe_domain : seq F;
  pe_t : F; pe_Vt : seq F; pe_Ht : seq F; pe_Zt : F }.

(** ssp.hpp:269-300 [ssp_witness] *)
Record ssp_witness := SspWitness {
  pw_num_variables : nat; pw_degree : nat; pw_num_inputs : nat;
  pw_d : F; pw_Vs : seq F; pw_H : seq F }.

(** ssp.hpp:208-261 [is_satisfied] *)
Definition ssp_eval_is_satisfied (q : ssp_eval) (w : ssp_witness) : bool :=
  if pe_num_variables q != pw_num_variables w then false
  else if pe_degree q != pw_degree w then false
  else if pe_num_inputs q != pw_num_inputs w then false
  else if pe_num_variables q != size (pw_Vs w) then false
  else if (pe_degree q).+1 != size (pw_H w) then false
  else if size (pe_Vt q) != (pe_num_variables q).+1 then false
  else if size (pe_Ht q) != (pe_degree q).+1 then false
  else if pe_Zt q != zeval (pe_domain q) (pe_t q) then false
  else
    let ans_V := head 0 (pe_Vt q) + pw_d w * pe_Zt q + inner_product (behead (pe_Vt q)) (pw_Vs w) in
    let ans_H := 0 + inner_product (pe_Ht q) (pw_H w) in
    if ans_V * ans_V - 1 != ans_H * pe_Zt q then false else true.

(** uscs_to_ssp.hpp:121-129 updates of Vt *)
Definition ssp_V_updates dom (cs : uscs F) (u : seq F) : seq (nat * F) :=
  flatten [seq [seq (tm.1, nth 0 u ic.1 * tm.2) | tm <- ic.2] | ic <- enum_idx (u_constraints cs)]
  ++ [seq (0%N, nth 0 u i) | i <- iota (size (u_constraints cs)) (size dom - size (u_constraints cs))].

(** uscs_to_ssp.hpp:109-145 [instance_map_with_evaluation] *)
Definition ssp_instance_map_with_evaluation dom (cs : uscs F) (t : F) : option ssp_eval :=
  let u := evaluate_all_lagrange_polynomials dom t in
  obnd (run_adds (nseq (u_num_variables cs).+1 0) (ssp_V_updates dom cs u)) (fun Vt =>
  Some (SspEval (u_num_variables cs) (size dom) (u_num_inputs cs) dom t Vt (powers t (size dom).+1) (zeval dom t))).

(** uscs_to_ssp.hpp:174-248 [witness_map] *)
Definition ssp_witness_map dom g (cs : uscs F) (primary auxiliary : seq F) (d : F) : option ssp_witness :=
  let m := size dom in
  let nc := size (u_constraints cs) in
  let full := primary ++ auxiliary in
  obnd (oseq [seq lc_evaluate c full | c <- u_constraints cs]) (fun ev =>
  obnd (run_adds (nseq m 0) (enum_idx ev ++ [seq (i, 1) | i <- iota nc (m - nc)])) (fun aA1 =>
  let aA := inverse_fft dom aA1 in
  let H0 := [seq 2%:R * d * nth 0 aA i | i <- iota 0 m] ++ [:: 0] in
  let H2 := add_poly_z dom (d ^+ 2) H0 in
  let cA := fft dom (multiply_by_coset aA g) in
  let H_tmp2 := quotient_from_coset dom g [seq nth 0 cA i ^+ 2 - 1 | i <- iota 0 m] in
  obnd (run_adds H2 [seq (i, nth 0 H_tmp2 i) | i <- iota 0 m]) (fun H =>
  Some (SspWitness (u_num_variables cs) m (u_num_inputs cs) d full H)))).

End AP.
