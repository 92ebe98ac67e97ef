{
 "claims": [
  {
   "property": "C01",
   "status": "proved",
   "theorems": [
    "Verif.Props.C01_LinearCombination.C01_evaluate",
    "Verif.Props.C01_LinearCombination.C01_constructor",
    "Verif.Props.C01_LinearCombination.C01_constructor_deterministic",
    "Verif.Props.C01_LinearCombination.C01_add",
    "Verif.Props.C01_LinearCombination.C01_sub",
    "Verif.Props.C01_LinearCombination.C01_scale",
    "Verif.Props.C01_LinearCombination.C01_opp",
    "Verif.Props.C01_LinearCombination.C01_var_plus_lc",
    "Verif.Props.C01_LinearCombination.C01_var_minus_lc",
    "Verif.Props.C01_LinearCombination.C01_term_opp",
    "Verif.Props.C01_LinearCombination.C01_term_scale",
    "Verif.Props.C01_LinearCombination.C01_const",
    "Verif.Props.C01_LinearCombination.C01_var",
    "Verif.Props.C01_LinearCombination.C01_add_term",
    "Verif.Props.C01_LinearCombination.C01_add_canonical",
    "Verif.Props.C01_LinearCombination.C01_is_valid",
    "Verif.Props.C01_LinearCombination.C01_equality",
    "Verif.Props.C01_LinearCombination.C01_is_valid_empty_refuted"
   ],
   "note": "Finding: is_valid on an empty combination dereferences --end() (C01_is_valid_empty_refuted)."
  },
  {
   "property": "C02",
   "status": "proved",
   "theorems": [
    "Verif.Props.C02_R1csSemantics.C02_r1cs_is_satisfied",
    "Verif.Props.C02_R1csSemantics.C02_uscs_is_satisfied",
    "Verif.Props.C02_R1csSemantics.C02_swap_AB",
    "Verif.Props.C02_R1csSemantics.C02_is_valid_last_variable_refuted"
   ],
   "note": "Finding: is_valid rejects systems that use the last variable (C02_is_valid_last_variable_refuted)."
  },
  {
   "property": "C03",
   "status": "proved",
   "theorems": [
    "Verif.Props.C03_BacsToR1cs.C03_witness_map_equivalent",
    "Verif.Props.C03_BacsToR1cs.C03_sound"
   ],
   "note": "BACS to R1CS, completeness and soundness of the translation."
  },
  {
   "property": "C04",
   "status": "proved",
   "theorems": [
    "Verif.Props.C04_TbcsToUscs.C04_witness_map",
    "Verif.Props.C04_TbcsToUscs.C04_sound",
    "Verif.Props.C04_TbcsToUscs.C04_last_wire_boolean_refuted",
    "Verif.Props.C04_TbcsToUscs.C04_sound_small_field_refuted",
    "Verif.Props.C04_TbcsToUscs.C04_wire_depths_refuted"
   ],
   "note": "TBCS to USCS. Findings: last wire not constrained boolean, small fields, wire depths (three _refuted theorems)."
  },
  {
   "property": "C05",
   "status": "proved",
   "theorems": [
    "Verif.Props.C05_R1csToQap.C05_complete",
    "Verif.Props.C05_R1csToQap.C05_sound",
    "Verif.Props.C05_R1csToQap.C05_instance_maps_agree",
    "Verif.Props.C05_R1csToQap.C05_quotient_degree"
   ],
   "note": "crypto3-math domains modelled by their documented meaning (a list of distinct points)."
  },
  {
   "property": "C06",
   "status": "proved",
   "theorems": [
    "Verif.Props.C06_R1csToSap.C06_complete",
    "Verif.Props.C06_R1csToSap.C06_sound"
   ],
   "note": "Soundness stated for fields with 2 != 0; crypto3-math domains modelled by their documented meaning."
  },
  {
   "property": "C07",
   "status": "proved",
   "theorems": [
    "Verif.Props.C07_UscsToSsp.C07_complete",
    "Verif.Props.C07_UscsToSsp.C07_sound"
   ],
   "note": "crypto3-math domains modelled by their documented meaning (a list of distinct points)."
  },
  {
   "property": "C08",
   "status": "proved",
   "theorems": [
    "Verif.Props.C08_Groth16Complete.C08_complete"
   ],
   "note": "Groups are arbitrary modules over the scalar field with an abstract bilinear pairing."
  },
  {
   "property": "C09",
   "status": "proved",
   "theorems": [
    "Verif.Props.C09_Groth16WitnessIndependence.C09_witness_independent",
    "Verif.Props.C09_Groth16WitnessIndependence.C09_C_determined"
   ],
   "note": "Explicit bijection of the randomness; C determined by (A,B) for every key with a non-zero delta_g2 and a non-degenerate pairing."
  },
  {
   "property": "C10",
   "status": "proved",
   "theorems": [
    "Verif.Props.C10_Groth16Input.C10_weak",
    "Verif.Props.C10_Groth16Input.C10_weak_padding",
    "Verif.Props.C10_Groth16Input.C10_strong_rejects",
    "Verif.Props.C10_Groth16Input.C10_strong_exact",
    "Verif.Props.C10_Groth16Input.C10_online_offline"
   ],
   "note": "precompute_g2 is modelled as the identity. Weak verifier on longer inputs: assertion (None)."
  },
  {
   "property": "C11",
   "status": "proved",
   "theorems": [
    "Verif.Props.C11_IntegerPermutation.C11_is_valid",
    "Verif.Props.C11_IntegerPermutation.C11_identity",
    "Verif.Props.C11_IntegerPermutation.C11_set",
    "Verif.Props.C11_IntegerPermutation.C11_inverse",
    "Verif.Props.C11_IntegerPermutation.C11_inverse_involutive",
    "Verif.Props.C11_IntegerPermutation.C11_slice"
   ],
   "note": "min > max permutations and size 0 (size_t wrap) excluded by ip_wf."
  },
  {
   "property": "C12",
   "status": "proved",
   "theorems": [
    "Verif.Props.C12_Benes.C12_topology",
    "Verif.Props.C12_Benes.C12_routes",
    "Verif.Props.C12_Benes.C12_validates",
    "Verif.Props.C12_Benes.C12_route_by_benes",
    "Verif.Props.C12_Benes.C12_validate_exact",
    "Verif.Props.C12_Benes.C12_validate_collision_refuted"
   ],
   "note": "Finding: valid_benes_routing accepts routings with colliding packets (C12_validate_collision_refuted)."
  },
  {
   "property": "C13",
   "status": "proved",
   "theorems": [
    "Verif.Props.C13_AsWaksman.C13_topology",
    "Verif.Props.C13_AsWaksman.C13_routes",
    "Verif.Props.C13_AsWaksman.C13_validates",
    "Verif.Props.C13_AsWaksman.C13_validate_exact",
    "Verif.Props.C13_AsWaksman.C13_one_packet_refuted",
    "Verif.Props.C13_AsWaksman.C13_validate_collision_refuted"
   ],
   "note": "For every number of packets n >= 2. Findings: with one packet the routing is undefined (C13_one_packet_refuted; generate_as_waksman_topology asserts n > 1, get_as_waksman_routing does not); valid_as_waksman_routing accepts routings with colliding packets (C13_validate_collision_refuted)."
  },
  {
   "property": "C14",
   "status": "proved",
   "theorems": [
    "Verif.Props.C14_ExpressionOperators.C14_leaves",
    "Verif.Props.C14_ExpressionOperators.C14_operators",
    "Verif.Props.C14_ExpressionOperators.C14_assignments",
    "Verif.Props.C14_ExpressionOperators.C14_terms",
    "Verif.Props.C14_ExpressionOperators.C14_variables",
    "Verif.Props.C14_ExpressionOperators.C14_constants",
    "Verif.Props.C14_ExpressionOperators.C14_convert"
   ],
   "note": "Over any commutative ring of coefficients; powers are naturals."
  },
  {
   "property": "C15",
   "status": "proved",
   "theorems": [
    "Verif.Props.C15_CachedEvaluation.C15_fresh",
    "Verif.Props.C15_CachedEvaluation.C15_repeated",
    "Verif.Props.C15_CachedEvaluation.C15_cache_emptied_refuted"
   ],
   "note": "Value and correctness of the leftover cache. Finding: entries of repeated subexpressions are never released, so a second call after the variables change returns stale values (C15_cache_emptied_refuted)."
  },
  {
   "property": "C16",
   "status": "proved",
   "theorems": [
    "Verif.Props.C16_MaxDegree.C16_substitution",
    "Verif.Props.C16_MaxDegree.C16_total_degree",
    "Verif.Props.C16_MaxDegree.C16_exact",
    "Verif.Props.C16_MaxDegree.C16_wrap_refuted"
   ],
   "note": "For expressions whose degrees fit in 32 bits. Finding: the visitor wraps modulo 2^32 (C16_wrap_refuted)."
  },
  {
   "property": "C17",
   "status": "proved",
   "theorems": [
    "Verif.Props.C17_NonLinearCombination.C17_value",
    "Verif.Props.C17_NonLinearCombination.C17_merged",
    "Verif.Props.C17_NonLinearCombination.C17_merge",
    "Verif.Props.C17_NonLinearCombination.C17_operators",
    "Verif.Props.C17_NonLinearCombination.C17_power_zero_refuted"
   ],
   "note": "For powers >= 1. Finding: x^0 is converted to x (C17_power_zero_refuted)."
  },
  {
   "property": "C18",
   "status": "proved",
   "theorems": [
    "Verif.Props.C18_ExpressionEquality.C18_term_equality",
    "Verif.Props.C18_ExpressionEquality.C18_expression_equality",
    "Verif.Props.C18_ExpressionEquality.C18_structure",
    "Verif.Props.C18_ExpressionEquality.C18_sum_equality",
    "Verif.Props.C18_ExpressionEquality.C18_hash",
    "Verif.Props.C18_ExpressionEquality.C18_term_hash",
    "Verif.Props.C18_ExpressionEquality.C18_lookup",
    "Verif.Props.C18_ExpressionEquality.C18_plonk_variable"
   ],
   "note": "Hash functions of the leaves are arbitrary parameters."
  },
  {
   "property": "C19",
   "status": "proved",
   "theorems": [
    "Verif.Props.C19_ColumnNumbering.C19_range",
    "Verif.Props.C19_ColumnNumbering.C19_injective",
    "Verif.Props.C19_ColumnNumbering.C19_surjective",
    "Verif.Props.C19_ColumnNumbering.C19_access",
    "Verif.Props.C19_ColumnNumbering.C19_out_of_range",
    "Verif.Props.C19_ColumnNumbering.C19_size"
   ],
   "note": "Column counts are naturals (the code narrows them to uint32_t)."
  },
  {
   "property": "C20",
   "status": "proved",
   "theorems": [
    "Verif.Props.C20_Padding.C20_rows",
    "Verif.Props.C20_Padding.C20_basic",
    "Verif.Props.C20_Padding.C20_zk",
    "Verif.Props.C20_Padding.C20_basic_zeros",
    "Verif.Props.C20_Padding.C20_public_input_zeros",
    "Verif.Props.C20_Padding.C20_wrap_refuted"
   ],
   "note": "For tables of fewer than 2^31 rows. Finding: 2^31 rows are padded to 8 (C20_wrap_refuted)."
  },
  {
   "property": "C21",
   "status": "proved",
   "theorems": [
    "Verif.Props.C21_CopyCycles.C21_bijection",
    "Verif.Props.C21_CopyCycles.C21_cycles",
    "Verif.Props.C21_CopyCycles.C21_invariant",
    "Verif.Props.C21_CopyCycles.C21_symmetric"
   ],
   "note": "For every list of copy constraints on cells: the construction ends, is a permutation of the cells, its cycles are the classes of linked cells, and an assignment is invariant iff it satisfies the constraints."
  },
  {
   "property": "C22",
   "status": "proved",
   "theorems": [
    "Verif.Props.C22_PermutationCompleteness.C22_complete"
   ],
   "note": "Composed with the preprocessor's identity and sigma polynomials (C21): prover succeeds, grand product closes, all three constraint polynomials vanish on every row; any number of parts. Preconditions: constraint cells lie in usable rows of non-selector columns, and no denominator vanishes."
  },
  {
   "property": "C23",
   "status": "proved",
   "theorems": [
    "Verif.Props.C23_PermutationSoundness.C23_sound",
    "Verif.Props.C23_PermutationSoundness.C23_two_parts_forgeable",
    "Verif.Props.C23_PermutationSoundness.C23_parts_order_refuted"
   ],
   "note": "Soundness in the algebraic sense for any number of parts, when the intermediate products do not depend on the combination challenges. C23_two_parts_forgeable and C23_parts_order_refuted: in the code these challenges are drawn before the intermediate products are committed, and with several parts a table violating copy constraints then passes on every row."
  },
  {
   "property": "C24",
   "status": "proved",
   "theorems": [
    "Verif.Props.C24_PermutationAgreement.C24_agreement"
   ],
   "note": "For every transcript, point and data: the verifier's values are the values of the prover's polynomials, and the transcripts end equal; single-part and multi-part."
  },
  {
   "property": "C25",
   "status": "proved",
   "theorems": [
    "Verif.Props.C25_LookupSorting.C25_sorted",
    "Verif.Props.C25_LookupSorting.C25_missing",
    "Verif.Props.C25_LookupSorting.C25_separated_runs_refuted",
    "Verif.Props.C25_LookupSorting.C25_overflow_refuted",
    "Verif.Props.C25_LookupSorting.C25_first_row_refuted"
   ],
   "note": "C25_sorted: the adjacent-pair counts of the sorted columns equal those of the table columns plus one diagonal pair per looked-up input, and the columns are linked; C25_missing: an input outside the table makes sorting fail. Findings: separated runs of one value, overflow of the last column and a first row that is not zero break the layout (refuted theorems)."
  },
  {
   "property": "C26",
   "status": "proved",
   "theorems": [
    "Verif.Props.C26_LookupCompleteness.C26_complete",
    "Verif.Props.C26_LookupCompleteness.C26_theta"
   ],
   "note": "C26_complete: whenever the tables have the documented layout, every lookup holds, theta separates the table rows and no denominator vanishes, the prover returns, its grand product ends in one and the four constraint polynomials vanish on the domain. C26_theta bounds the thetas that fail to separate: among more than (rows+1)^2*width distinct challenges one separates."
  },
  {
   "property": "C27",
   "status": "proved",
   "theorems": [
    "Verif.Props.C27_LookupAgreement.C27_agreement"
   ],
   "note": "C27_agreement: for every input on which the prover returns, the verifier run on the opened values at y returns the values of the prover's four polynomials at y, the same transcript, and leaves the evaluation map unchanged. Hypothesis options_sized is what append_option asserts."
  },
  {
   "property": "C28",
   "status": "proved",
   "theorems": [
    "Verif.Props.C28_LookupParts.C28_sum",
    "Verif.Props.C28_LookupParts.C28_sorted_columns",
    "Verif.Props.C28_LookupParts.C28_parts",
    "Verif.Props.C28_LookupParts.C28_degrees",
    "Verif.Props.C28_LookupParts.C28_empty_part_refuted",
    "Verif.Props.C28_LookupParts.C28_empty_part_fails",
    "Verif.Props.C28_LookupParts.C28_prover_stops",
    "Verif.Props.C28_LookupParts.C28_oversized_refuted",
    "Verif.Props.C28_LookupParts.C28_no_gates_refuted"
   ],
   "note": "C28_sum, C28_sorted_columns, C28_parts and C28_degrees hold when every item fits the bound (fits); C28_empty_part_refuted, C28_prover_stops, C28_oversized_refuted and C28_no_gates_refuted show what the code does otherwise."
  },
  {
   "property": "C29",
   "status": "proved",
   "theorems": [
    "Verif.Props.C29_GatesArgument.C29_terms",
    "Verif.Props.C29_GatesArgument.C29_agreement",
    "Verif.Props.C29_GatesArgument.C29_row_value",
    "Verif.Props.C29_GatesArgument.C29_complete",
    "Verif.Props.C29_GatesArgument.C29_sound",
    "Verif.Props.C29_GatesArgument.C29_buckets",
    "Verif.Props.C29_GatesArgument.C29_negative_rotation_refuted"
   ],
   "note": "Prover's two-bucket cached evaluation vs verifier's sum (agreement), rows of the table (row_value), completeness for every theta, soundness when the polynomial vanishes for as many challenges as there are constraints, degree limits of the buckets; finding: rotated row index wraps modulo 2^64 for tables whose size is not a power of two."
  },
  {
   "property": "C30",
   "status": "proved",
   "theorems": [
    "Verif.Props.C30_QuotientSplitting.C30_chunks",
    "Verif.Props.C30_QuotientSplitting.C30_recombine",
    "Verif.Props.C30_QuotientSplitting.C30_degree",
    "Verif.Props.C30_QuotientSplitting.C30_committed",
    "Verif.Props.C30_QuotientSplitting.C30_overflow",
    "Verif.Props.C30_QuotientSplitting.C30_fits",
    "Verif.Props.C30_QuotientSplitting.C30_max_quotient_chunks_refuted"
   ],
   "note": "Chunks recombine to the quotient at every point. C30_max_quotient_chunks_refuted: when max_quotient_chunks is set lower than needed the split silently produces more chunks than announced."
  },
  {
   "property": "C31",
   "status": "proved",
   "theorems": [
    "Verif.Props.C31_OpenedValues.C31_registered",
    "Verif.Props.C31_OpenedValues.C31_columns",
    "Verif.Props.C31_OpenedValues.C31_reads",
    "Verif.Props.C31_OpenedValues.C31_missing_selector_refuted"
   ],
   "note": "C31_registered, C31_columns, C31_reads: for circuits whose variables name columns (within) and claimed values at the registered points. C31_missing_selector_refuted: the verifier does not check that a gate's selector exists; a missing one reads the default zero and disables the gate."
  },
  {
   "property": "C32",
   "status": "proved",
   "theorems": [
    "Verif.Props.C32_SamePoints.C32_same_points"
   ],
   "note": "C32_same_points: both sides register without error and their points are those of Spec/PlaceholderSpec.v, for every challenge."
  },
  {
   "property": "C33",
   "status": "proved",
   "theorems": [
    "Verif.Props.C33_FinalIdentity.C33_sound",
    "Verif.Props.C33_FinalIdentity.C33_separate",
    "Verif.Props.C33_FinalIdentity.C33_preprocess",
    "Verif.Props.C33_FinalIdentity.C33_complete",
    "Verif.Props.C33_FinalIdentity.C33_any_table",
    "Verif.Props.C33_FinalIdentity.C33_kzg",
    "Verif.Props.C33_FinalIdentity.C33_kzg_v2"
   ],
   "note": "C33_preprocess, C33_complete (any commitment scheme that opens the state), C33_kzg and C33_kzg_v2 (KZG schemes, no assumption on the scheme), C33_any_table (the verifier accepts a protocol-following prover exactly if the remainder vanishes at y), C33_sound and C33_separate (enough points imply that the combination vanishes on the rows; each constraint separately)."
  },
  {
   "property": "C34",
   "status": "proved",
   "theorems": [
    "Verif.Props.C34_PublicInputs.C34_value",
    "Verif.Props.C34_PublicInputs.C34_binds",
    "Verif.Props.C34_PublicInputs.C34_bound",
    "Verif.Props.C34_PublicInputs.C34_accepts",
    "Verif.Props.C34_PublicInputs.C34_nothing_supplied",
    "Verif.Props.C34_PublicInputs.C34_complete",
    "Verif.Props.C34_PublicInputs.C34_negative_rotation_refuted"
   ],
   "note": "C34_value, C34_binds, C34_bound, C34_accepts, C34_complete; only supplied columns are compared (C34_nothing_supplied); with a negative rotation on a public input column true inputs are rejected (C34_negative_rotation_refuted)."
  },
  {
   "property": "C35",
   "status": "proved",
   "theorems": [
    "Verif.Props.C35_LookupPacking.C35_pack",
    "Verif.Props.C35_LookupPacking.C35_succeeds",
    "Verif.Props.C35_LookupPacking.C35_first_row",
    "Verif.Props.C35_LookupPacking.C35_fresh_selector",
    "Verif.Props.C35_LookupPacking.C35_horizontal",
    "Verif.Props.C35_LookupPacking.C35_shared_selector_refuted",
    "Verif.Props.C35_LookupPacking.C35_big_table_refuted",
    "Verif.Props.C35_LookupPacking.C35_exact_rows_refuted"
   ],
   "note": "Vertical packing (pack_lookup_tables): every declared subtable selects exactly its rows, in order (C35_pack), the packing succeeds under explicit conditions (C35_succeeds), row 0 stays zero and columns end before the returned number of rows (C35_first_row), gate selectors are not reused (C35_fresh_selector). Horizontal packing: the same for tables with less than max_usable_rows rows and no two subtables with the same range (C35_horizontal); outside these conditions the claim is false and refuted: shared selectors (line 300), tables with more rows than max_usable_rows, tables with exactly max_usable_rows rows."
  },
  {
   "property": "C36",
   "status": "proved",
   "theorems": [
    "Verif.Props.C36_FriFolding.C36_halves",
    "Verif.Props.C36_FriFolding.C36_line",
    "Verif.Props.C36_FriFolding.C36_dfs_line",
    "Verif.Props.C36_FriFolding.C36_agree"
   ],
   "note": "Folding a polynomial by both overloads of fold_polynomial; the folded polynomial passes through the line the verifier interpolates at every query point, and both overloads agree."
  },
  {
   "property": "C37",
   "status": "proved",
   "theorems": [
    "Verif.Props.C37_FriLayout.C37_leaf",
    "Verif.Props.C37_FriLayout.C37_partition",
    "Verif.Props.C37_FriLayout.C37_coset"
   ],
   "note": "For every query index and every domain and step that are powers of two, the opened pairs in the order computed by get_correct_order are the committed leaf at the folded index and use each pair once; every value is in exactly one leaf; the coset of calculate_s is exactly the set of domain points with the same power 2^step."
  },
  {
   "property": "C38",
   "status": "proved",
   "theorems": [
    "Verif.Props.C38_FriComplete.C38_accepted",
    "Verif.Props.C38_FriComplete.C38_produces",
    "Verif.Props.C38_FriComplete.C38_zero_challenge_refuted",
    "Verif.Props.C38_FriComplete.C38_too_many_rounds_refuted"
   ],
   "note": "Completeness of FRI for every transcript, step list, batch layout and both polynomial representations, including grinding. The prover stops only when grinding fails or a query challenge is zero (C38_produces, C38_zero_challenge_refuted). check_step_list also accepts step lists with more rounds than the degree bound allows, for which nothing is ever accepted (C38_too_many_rounds_refuted): the completeness theorem has the needed bound as a hypothesis."
  },
  {
   "property": "C39",
   "status": "proved",
   "theorems": [
    "Verif.Props.C39_FriDegree.C39_bound",
    "Verif.Props.C39_FriDegree.C39_rejects",
    "Verif.Props.C39_FriDegree.C39_twice_refuted",
    "Verif.Props.C39_FriDegree.C39_vacuous_refuted",
    "Verif.Props.C39_FriDegree.C39_late_final_refuted"
   ],
   "note": "The bound enforced by verify_eval, and three findings about it as theorems: twice the intended degree is accepted (C39_twice_refuted), any claimed values are accepted for expand_factor = 1 (C39_vacuous_refuted) and for few queries, by choosing the final polynomial after the queries are known (C39_late_final_refuted)."
  },
  {
   "property": "C40",
   "status": "proved",
   "theorems": [
    "Verif.Props.C40_Lpc.C40_recombination",
    "Verif.Props.C40_Lpc.C40_accepted",
    "Verif.Props.C40_Lpc.C40_produces",
    "Verif.Props.C40_Lpc.C40_wrong_value",
    "Verif.Props.C40_Lpc.C40_forged_refuted",
    "Verif.Props.C40_Lpc.C40_unchecked_refuted"
   ],
   "note": "Histories of calls are arbitrary (append, commit, mark_batch_as_fixed, setup, evaluation points in any order that violates no assertion). C40_wrong_value is the soundness half, for claimed values fixed before theta. The code does not put the claimed values into the transcript before theta is drawn: C40_forged_refuted shows that every accepted proof can be turned into an accepted proof with any chosen value; C40_unchecked_refuted shows that values after the first for a repeated point are never looked at."
  },
  {
   "property": "C41",
   "status": "proved",
   "theorems": [
    "Verif.Props.C41_Kzg.C41_complete",
    "Verif.Props.C41_Kzg.C41_too_long",
    "Verif.Props.C41_Kzg.C41_commit",
    "Verif.Props.C41_Kzg.C41_exact",
    "Verif.Props.C41_Kzg.C41_honest_unique"
   ],
   "note": "Simple KZG scheme over abstract modules and a bilinear pairing: completeness, commit, exactness (acceptance iff the claimed value is p(z), relative to the trapdoor) and refusal of too long polynomials."
  },
  {
   "property": "C42",
   "status": "proved",
   "theorems": [
    "Verif.Props.C42_BatchedKzg.C42_v1",
    "Verif.Props.C42_BatchedKzg.C42_v2",
    "Verif.Props.C42_BatchedKzg.C42_static",
    "Verif.Props.C42_BatchedKzg.C42_v2_empty_batch_refuted"
   ],
   "note": "Any history of API calls on the prover's scheme object and the mirrored history on the verifier's: the proof is produced and accepted, for both versions; also the static batched functions. Finding: version 2 divides by zero on an empty committed batch, and its two transcripts differ afterwards by the last message."
  },
  {
   "property": "C43",
   "status": "proved",
   "theorems": [
    "Verif.Props.C43_Pedersen.C43_verify",
    "Verif.Props.C43_Pedersen.C43_recover",
    "Verif.Props.C43_Pedersen.C43_refuse",
    "Verif.Props.C43_Pedersen.C43_verify_exact",
    "Verif.Props.C43_Pedersen.C43_opens"
   ],
   "note": "Shares verify, any set of at least t distinct shares reconstructs; a wrong share is refused when the group elements distinguish it."
  },
  {
   "property": "C44",
   "status": "proved",
   "theorems": [
    "Verif.Props.C44_ProofOfWork.C44_round_trip",
    "Verif.Props.C44_ProofOfWork.C44_first",
    "Verif.Props.C44_ProofOfWork.C44_terminates",
    "Verif.Props.C44_ProofOfWork.C44_bytes",
    "Verif.Props.C44_ProofOfWork.C44_bytes_injective",
    "Verif.Props.C44_ProofOfWork.C44_field_round_trip",
    "Verif.Props.C44_ProofOfWork.C44_field_leading_zeros",
    "Verif.Props.C44_ProofOfWork.C44_poseidon_half",
    "Verif.Props.C44_ProofOfWork.C44_poseidon_mask_refuted"
   ],
   "note": "For every transcript implementation. C44_poseidon_mask_refuted records that the Poseidon integer challenge has only half of its bits."
  },
  {
   "property": "C45",
   "status": "proved",
   "theorems": [
    "Verif.Props.C45_PowersOfTau.C45_accumulator",
    "Verif.Props.C45_PowersOfTau.C45_contributions_verify",
    "Verif.Props.C45_PowersOfTau.C45_sound",
    "Verif.Props.C45_PowersOfTau.C45_history_sound",
    "Verif.Props.C45_PowersOfTau.C45_result",
    "Verif.Props.C45_PowersOfTau.C45_pok_rerandomised",
    "Verif.Props.C45_PowersOfTau.C45_pok_replayed",
    "Verif.Props.C45_PowersOfTau.C45_zero_contribution",
    "Verif.Props.C45_PowersOfTau.C45_zero_beta_refuted"
   ],
   "note": "Accumulator after any history, acceptance of every honest contribution for all draws, soundness of one contribution and of a whole transcript up to probability 1/|F| per step (rarely_accepts), the Lagrange/H result. Hashing, serialisation and seeded generators are arbitrary functions. Findings: the points of a proof of knowledge are not hashed (C45_pok_rerandomised), only one byte of the hash is used (C45_pok_replayed), zero contributions are accepted (C45_zero_contribution), and after a zero beta the G2 beta is unchecked (C45_zero_beta_refuted)."
  },
  {
   "property": "C46",
   "status": "proved",
   "theorems": [
    "Verif.Props.C46_Groth16Mpc.C46_key",
    "Verif.Props.C46_Groth16Mpc.C46_verifies",
    "Verif.Props.C46_Groth16Mpc.C46_proofs_accepted",
    "Verif.Props.C46_Groth16Mpc.C46_sound",
    "Verif.Props.C46_Groth16Mpc.C46_no_contribution"
   ],
   "note": "Both phases: the key pair after any sequence of contributions is the generator's key for gamma = 1 and delta the product (same_key: equal in every field, the sparse B query compared entry by entry), it verifies for every draw, proofs made with it are accepted, and (C46_sound) any other key pair with a non-zero delta is accepted with probability at most 1/|F|. Hashing, seeding, serialisation and the transcript are arbitrary functions. C46_no_contribution: the untouched initial key (delta = 1) verifies with an empty list."
  },
  {
   "property": "C47",
   "status": "proved",
   "theorems": [
    "Verif.Props.C47_KnowledgeCommitment.C47_batch_exp",
    "Verif.Props.C47_KnowledgeCommitment.C47_chunk_independent",
    "Verif.Props.C47_KnowledgeCommitment.C47_multiexp",
    "Verif.Props.C47_KnowledgeCommitment.C47_inner_product"
   ],
   "note": "Any number of chunks, including more chunks than entries."
  },
  {
   "property": "C48",
   "status": "proved",
   "theorems": [
    "Verif.Props.C48_SetCommitment.C48_membership",
    "Verif.Props.C48_SetCommitment.C48_membership_exact",
    "Verif.Props.C48_SetCommitment.C48_complete",
    "Verif.Props.C48_SetCommitment.C48_sound",
    "Verif.Props.C48_SetCommitment.C48_succeeds",
    "Verif.Props.C48_SetCommitment.C48_idempotent",
    "Verif.Props.C48_SetCommitment.C48_commitment_binding",
    "Verif.Props.C48_SetCommitment.C48_max_entries_refuted"
   ],
   "note": "All histories of additions. The Merkle tree (snark/merkle_tree.hpp is missing from the repository) is modelled as a complete binary hash tree: an assumption about the dependency. is_in_set is exact up to collisions of the hash of the values; soundness and binding exhibit a collision of the node hash otherwise. Finding: max_entries is not enforced, only the next power of two."
  },
  {
   "property": "C49",
   "status": "proved",
   "theorems": [
    "Verif.Props.C49_FriQuery.C49_accepted",
    "Verif.Props.C49_FriQuery.C49_position_refuted"
   ],
   "note": "C49_accepted: for every accepted proof and every query whose Merkle positions are the expected ones, the committed vectors are consistent (spec folding written independently in Spec/FriSpec.v) or the hashing is broken. C49_position_refuted: positions are not compared by the verifier, so a two-valued vector is accepted with any number of queries under collision-free hashing (assumes, as Model/Fri.v states, that crypto3-containers' validate(leaf) takes the position from the proof). The passage from per-query consistency to proximity (FRI soundness error) is not proved."
  },
  {
   "property": "C50",
   "status": "proved",
   "theorems": [
    "Verif.Props.C50_R1csPpzksnark.C50_complete",
    "Verif.Props.C50_R1csPpzksnark.C50_generates",
    "Verif.Props.C50_R1csPpzksnark.C50_witness_independent",
    "Verif.Props.C50_R1csPpzksnark.C50_weak_exact",
    "Verif.Props.C50_R1csPpzksnark.C50_strong_exact",
    "Verif.Props.C50_R1csPpzksnark.C50_extracts"
   ],
   "note": "C50_complete / C50_generates / C50_witness_independent / C50_weak_exact / C50_strong_exact. Witness independence needs the evaluation point outside the domain. The assertion of the generator is a parameter (compiled in or not). C50_extracts is knowledge soundness against algebraic (linear) provers; that real provers are linear is a hardness assumption and not stated."
  },
  {
   "property": "C51",
   "status": "proved",
   "theorems": [
    "Verif.Props.C51_UscsPpzksnark.C51_complete",
    "Verif.Props.C51_UscsPpzksnark.C51_generates",
    "Verif.Props.C51_UscsPpzksnark.C51_unused_input_refuted",
    "Verif.Props.C51_UscsPpzksnark.C51_witness_independent",
    "Verif.Props.C51_UscsPpzksnark.C51_weak_exact",
    "Verif.Props.C51_UscsPpzksnark.C51_strong_exact",
    "Verif.Props.C51_UscsPpzksnark.C51_extracts"
   ],
   "note": "C51_extracts is knowledge soundness against algebraic (linear) provers: V_g2 may be arbitrary. Finding: with assertions the generator aborts for every system with an unused public input (C51_unused_input_refuted). Witness independence needs the evaluation point outside the domain."
  },
  {
   "property": "C52",
   "status": "proved",
   "theorems": [
    "Verif.Props.C52_SePpzksnark.C52_generates",
    "Verif.Props.C52_SePpzksnark.C52_complete",
    "Verif.Props.C52_SePpzksnark.C52_witness_independent",
    "Verif.Props.C52_SePpzksnark.C52_weak_exact",
    "Verif.Props.C52_SePpzksnark.C52_strong_exact",
    "Verif.Props.C52_SePpzksnark.C52_excess_input_refuted",
    "Verif.Props.C52_SePpzksnark.C52_extracts"
   ],
   "note": "C52_extracts is knowledge soundness against algebraic (linear) provers: the G2 element of the proof may be arbitrary. Simulation extractability (extraction in the presence of simulated proofs) is not stated. Finding: the weak verifier has no length check and ignores inputs beyond the key's (C52_excess_input_refuted)."
  },
  {
   "property": "C53",
   "status": "proved",
   "theorems": [
    "Verif.Props.C53_CircuitPpzksnark.C53_bacs_complete",
    "Verif.Props.C53_CircuitPpzksnark.C53_bacs_witness_independent",
    "Verif.Props.C53_CircuitPpzksnark.C53_bacs_generates",
    "Verif.Props.C53_CircuitPpzksnark.C53_bacs_extracts",
    "Verif.Props.C53_CircuitPpzksnark.C53_tbcs_complete",
    "Verif.Props.C53_CircuitPpzksnark.C53_tbcs_witness_independent",
    "Verif.Props.C53_CircuitPpzksnark.C53_tbcs_generates",
    "Verif.Props.C53_CircuitPpzksnark.C53_tbcs_generates_refuted",
    "Verif.Props.C53_CircuitPpzksnark.C53_tbcs_extracts"
   ],
   "note": "Finding: C53_tbcs_generates_refuted. The type of r1cs_va in bacs_ppzksnark/prover.hpp:73 names a PLONK constraint system; the model reads it as the vector of field elements witness_map returns."
  },
  {
   "property": "C54",
   "status": "proved",
   "theorems": [
    "Verif.Props.C54_Groth16Extract.C54_extracts"
   ],
   "note": "Knowledge soundness against algebraic (linear) provers; the knowledge-of-exponent assumption that real provers are linear is not modelled. gamma may be any one non-zero value."
  },
  {
   "property": "C55",
   "status": "proved",
   "theorems": [
    "Verif.Props.C55_Aggregation.C55_exact",
    "Verif.Props.C55_Aggregation.C55_complete",
    "Verif.Props.C55_Aggregation.C55_sound",
    "Verif.Props.C55_Aggregation.C55_checks",
    "Verif.Props.C55_Aggregation.C55_count_refuted",
    "Verif.Props.C55_Aggregation.C55_defined_refuted"
   ],
   "note": "Findings: C55_count_refuted, C55_defined_refuted. Knowledge soundness of the inner product argument rests on binding of the commitments and is not claimed."
  },
  {
   "property": "C56",
   "status": "proved",
   "theorems": [
    "Verif.Props.C56_FriProximity.C56_few",
    "Verif.Props.C56_FriProximity.C56_proximity",
    "Verif.Props.C56_FriProximity.C56_strategy",
    "Verif.Props.C56_FriProximity.C56_accepted"
   ],
   "note": "The bound on the degree is twice the one asked for (finding C49) and Merkle openings at wrong positions are excluded by hypothesis (finding C49_position_refuted)."
  },
  {
   "property": "C57",
   "status": "proved",
   "theorems": [
    "Verif.Props.C57_EncryptedInput.C57_exact",
    "Verif.Props.C57_EncryptedInput.C57_tag",
    "Verif.Props.C57_EncryptedInput.C57_binds",
    "Verif.Props.C57_EncryptedInput.C57_complete",
    "Verif.Props.C57_EncryptedInput.C57_number_refuted"
   ],
   "note": "The encryption itself is in the pubkey library, outside of /repo: its keys and ciphertexts are specified in Spec/EncryptedSpec.v. Finding: C57_number_refuted."
  },
  {
   "property": "C58",
   "status": "proved",
   "theorems": [
    "Verif.Props.C58_LpcProximity.C58_few",
    "Verif.Props.C58_LpcProximity.C58_values",
    "Verif.Props.C58_LpcProximity.C58_binding",
    "Verif.Props.C58_LpcProximity.C58_accepted"
   ],
   "note": "The claimed values must be fixed before theta for C58_few to bound anything; the code does not enforce that (C40_forged_refuted). The points of the claims must be outside of the domain."
  },
  {
   "property": "C59",
   "status": "proved",
   "theorems": [
    "Verif.Props.C59_KimchiPedersen.C59_commit",
    "Verif.Props.C59_KimchiPedersen.C59_coefficients",
    "Verif.Props.C59_KimchiPedersen.C59_rounds",
    "Verif.Props.C59_KimchiPedersen.C59_exact",
    "Verif.Props.C59_KimchiPedersen.C59_separate",
    "Verif.Props.C59_KimchiPedersen.C59_complete",
    "Verif.Props.C59_KimchiPedersen.C59_forged",
    "Verif.Props.C59_KimchiPedersen.C59_add",
    "Verif.Props.C59_KimchiPedersen.C59_scale",
    "Verif.Props.C59_KimchiPedersen.C59_multi_scalar",
    "Verif.Props.C59_KimchiPedersen.C59_chunk",
    "Verif.Props.C59_KimchiPedersen.C59_sub_refuted",
    "Verif.Props.C59_KimchiPedersen.C59_multi_scalar_refuted",
    "Verif.Props.C59_KimchiPedersen.C59_bound_refuted"
   ],
   "note": "Findings: C59_forged, C59_bound_refuted, C59_sub_refuted, C59_multi_scalar_refuted."
  },
  {
   "property": "C60",
   "status": "proved",
   "theorems": [
    "Verif.Props.C60_KimchiExtract.C60_extract",
    "Verif.Props.C60_KimchiExtract.C60_binding",
    "Verif.Props.C60_KimchiExtract.C60_padding_forged"
   ],
   "note": "Runs are accepted when the two equations of the verifier hold; C59 relates them to verify_eval. Finding: C60_padding_forged."
  },
  {
   "property": "C61",
   "status": "proved",
   "theorems": [
    "Verif.Props.C61_KimchiTranscript.C61_transcript",
    "Verif.Props.C61_KimchiTranscript.C61_stale",
    "Verif.Props.C61_KimchiTranscript.C61_decode",
    "Verif.Props.C61_KimchiTranscript.C61_alphas"
   ],
   "note": "The Poseidon sponge and the conversions between field elements and limbs are arbitrary functions. Finding: C61_stale."
  },
  {
   "property": "C62",
   "status": "proved",
   "theorems": [
    "Verif.Props.C62_PicklesExpr.C62_evaluate",
    "Verif.Props.C62_PicklesExpr.C62_defined",
    "Verif.Props.C62_PicklesExpr.C62_prev_chal",
    "Verif.Props.C62_PicklesExpr.C62_permutation",
    "Verif.Props.C62_PicklesExpr.C62_generic",
    "Verif.Props.C62_PicklesExpr.C62_combine",
    "Verif.Props.C62_PicklesExpr.C62_combine_refuted",
    "Verif.Props.C62_PicklesExpr.C62_public_refuted",
    "Verif.Props.C62_PicklesExpr.C62_missing_column"
   ],
   "note": "The conversion from expressions to tokens is not in the code: it is part of the specification. Findings: C62_combine_refuted, C62_public_refuted, C62_missing_column."
  },
  {
   "property": "C63",
   "status": "proved",
   "theorems": [
    "Verif.Props.C63_PicklesVerifier.C63_linearization",
    "Verif.Props.C63_PicklesVerifier.C63_shared_alpha_refuted",
    "Verif.Props.C63_PicklesVerifier.C63_lookup_dropped_refuted",
    "Verif.Props.C63_PicklesVerifier.C63_index_terms"
   ],
   "note": "The theorem about the identity is for a linearization without further gates. Findings: C63_shared_alpha_refuted, C63_lookup_dropped_refuted."
  }
 ]
}