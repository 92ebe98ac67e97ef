{
 "C01": {
  "note": "Finding: is_valid on an empty combination dereferences --end() (C01_is_valid_empty_refuted).",
  "status": "proved"
 },
 "C02": {
  "note": "Finding: is_valid rejects systems that use the last variable (C02_is_valid_last_variable_refuted).",
  "status": "proved"
 },
 "C03": {
  "note": "BACS to R1CS, completeness and soundness of the translation.",
  "status": "proved"
 },
 "C04": {
  "note": "TBCS to USCS. Findings: last wire not constrained boolean, small fields, wire depths (three _refuted theorems).",
  "status": "proved"
 },
 "C05": {
  "note": "crypto3-math domains modelled by their documented meaning (a list of distinct points).",
  "status": "proved"
 },
 "C06": {
  "note": "Soundness stated for fields with 2 != 0; crypto3-math domains modelled by their documented meaning.",
  "status": "proved"
 },
 "C07": {
  "note": "crypto3-math domains modelled by their documented meaning (a list of distinct points).",
  "status": "proved"
 },
 "C08": {
  "note": "Groups are arbitrary modules over the scalar field with an abstract bilinear pairing.",
  "status": "proved"
 },
 "C09": {
  "note": "Explicit bijection of the randomness; C determined by (A,B) for every key with a non-zero delta_g2 and a non-degenerate pairing.",
  "status": "proved"
 },
 "C10": {
  "note": "precompute_g2 is modelled as the identity. Weak verifier on longer inputs: assertion (None).",
  "status": "proved"
 },
 "C11": {
  "note": "min > max permutations and size 0 (size_t wrap) excluded by ip_wf.",
  "status": "proved"
 },
 "C12": {
  "note": "Finding: valid_benes_routing accepts routings with colliding packets (C12_validate_collision_refuted).",
  "status": "proved"
 },
 "C13": {
  "note": "For every number of packets n >= 2. Findings: with one packet the routing is undefined (C13_one_packet_refuted; generate_as_waksman_topology asserts n > 1, get_as_waksman_routing does not); valid_as_waksman_routing accepts routings with colliding packets (C13_validate_collision_refuted).",
  "status": "proved"
 },
 "C14": {
  "note": "Over any commutative ring of coefficients; powers are naturals.",
  "status": "proved"
 },
 "C15": {
  "note": "Value and correctness of the leftover cache. Finding: entries of repeated subexpressions are never released, so a second call after the variables change returns stale values (C15_cache_emptied_refuted).",
  "status": "proved"
 },
 "C16": {
  "note": "For expressions whose degrees fit in 32 bits. Finding: the visitor wraps modulo 2^32 (C16_wrap_refuted).",
  "status": "proved"
 },
 "C17": {
  "note": "For powers >= 1. Finding: x^0 is converted to x (C17_power_zero_refuted).",
  "status": "proved"
 },
 "C18": {
  "note": "Hash functions of the leaves are arbitrary parameters.",
  "status": "proved"
 },
 "C19": {
  "note": "Column counts are naturals (the code narrows them to uint32_t).",
  "status": "proved"
 },
 "C20": {
  "note": "For tables of fewer than 2^31 rows. Finding: 2^31 rows are padded to 8 (C20_wrap_refuted).",
  "status": "proved"
 },
 "C21": {
  "note": "For every list of copy constraints on cells: the construction ends, is a permutation of the cells, its cycles are the classes of linked cells, and an assignment is invariant iff it satisfies the constraints.",
  "status": "proved"
 },
 "C22": {
  "note": "Composed with the preprocessor's identity and sigma polynomials (C21): prover succeeds, grand product closes, all three constraint polynomials vanish on every row; any number of parts. Preconditions: constraint cells lie in usable rows of non-selector columns, and no denominator vanishes.",
  "status": "proved"
 },
 "C23": {
  "note": "Soundness in the algebraic sense for any number of parts, when the intermediate products do not depend on the combination challenges. C23_two_parts_forgeable and C23_parts_order_refuted: in the code these challenges are drawn before the intermediate products are committed, and with several parts a table violating copy constraints then passes on every row.",
  "status": "proved"
 },
 "C24": {
  "note": "For every transcript, point and data: the verifier's values are the values of the prover's polynomials, and the transcripts end equal; single-part and multi-part.",
  "status": "proved"
 },
 "C25": {
  "note": "C25_sorted: the adjacent-pair counts of the sorted columns equal those of the table columns plus one diagonal pair per looked-up input, and the columns are linked; C25_missing: an input outside the table makes sorting fail. Findings: separated runs of one value, overflow of the last column and a first row that is not zero break the layout (refuted theorems).",
  "status": "proved"
 },
 "C26": {
  "note": "C26_complete: whenever the tables have the documented layout, every lookup holds, theta separates the table rows and no denominator vanishes, the prover returns, its grand product ends in one and the four constraint polynomials vanish on the domain. C26_theta bounds the thetas that fail to separate: among more than (rows+1)^2*width distinct challenges one separates.",
  "status": "proved"
 },
 "C27": {
  "note": "C27_agreement: for every input on which the prover returns, the verifier run on the opened values at y returns the values of the prover's four polynomials at y, the same transcript, and leaves the evaluation map unchanged. Hypothesis options_sized is what append_option asserts.",
  "status": "proved"
 },
 "C28": {
  "note": "C28_sum, C28_sorted_columns, C28_parts and C28_degrees hold when every item fits the bound (fits); C28_empty_part_refuted, C28_prover_stops, C28_oversized_refuted and C28_no_gates_refuted show what the code does otherwise.",
  "status": "proved"
 },
 "C29": {
  "note": "Prover's two-bucket cached evaluation vs verifier's sum (agreement), rows of the table (row_value), completeness for every theta, soundness when the polynomial vanishes for as many challenges as there are constraints, degree limits of the buckets; finding: rotated row index wraps modulo 2^64 for tables whose size is not a power of two.",
  "status": "proved"
 },
 "C30": {
  "note": "Chunks recombine to the quotient at every point. C30_max_quotient_chunks_refuted: when max_quotient_chunks is set lower than needed the split silently produces more chunks than announced.",
  "status": "proved"
 },
 "C31": {
  "note": "C31_registered, C31_columns, C31_reads: for circuits whose variables name columns (within) and claimed values at the registered points. C31_missing_selector_refuted: the verifier does not check that a gate's selector exists; a missing one reads the default zero and disables the gate.",
  "status": "proved"
 },
 "C32": {
  "note": "C32_same_points: both sides register without error and their points are those of Spec/PlaceholderSpec.v, for every challenge.",
  "status": "proved"
 },
 "C33": {
  "note": "C33_preprocess, C33_complete (any commitment scheme that opens the state), C33_kzg and C33_kzg_v2 (KZG schemes, no assumption on the scheme), C33_any_table (the verifier accepts a protocol-following prover exactly if the remainder vanishes at y), C33_sound and C33_separate (enough points imply that the combination vanishes on the rows; each constraint separately).",
  "status": "proved"
 },
 "C34": {
  "note": "C34_value, C34_binds, C34_bound, C34_accepts, C34_complete; only supplied columns are compared (C34_nothing_supplied); with a negative rotation on a public input column true inputs are rejected (C34_negative_rotation_refuted).",
  "status": "proved"
 },
 "C35": {
  "note": "Vertical packing (pack_lookup_tables): every declared subtable selects exactly its rows, in order (C35_pack), the packing succeeds under explicit conditions (C35_succeeds), row 0 stays zero and columns end before the returned number of rows (C35_first_row), gate selectors are not reused (C35_fresh_selector). Horizontal packing: the same for tables with less than max_usable_rows rows and no two subtables with the same range (C35_horizontal); outside these conditions the claim is false and refuted: shared selectors (line 300), tables with more rows than max_usable_rows, tables with exactly max_usable_rows rows.",
  "status": "proved"
 },
 "C36": {
  "note": "Folding a polynomial by both overloads of fold_polynomial; the folded polynomial passes through the line the verifier interpolates at every query point, and both overloads agree.",
  "status": "proved"
 },
 "C37": {
  "note": "For every query index and every domain and step that are powers of two, the opened pairs in the order computed by get_correct_order are the committed leaf at the folded index and use each pair once; every value is in exactly one leaf; the coset of calculate_s is exactly the set of domain points with the same power 2^step.",
  "status": "proved"
 },
 "C38": {
  "note": "Completeness of FRI for every transcript, step list, batch layout and both polynomial representations, including grinding. The prover stops only when grinding fails or a query challenge is zero (C38_produces, C38_zero_challenge_refuted). check_step_list also accepts step lists with more rounds than the degree bound allows, for which nothing is ever accepted (C38_too_many_rounds_refuted): the completeness theorem has the needed bound as a hypothesis.",
  "status": "proved"
 },
 "C39": {
  "note": "The bound enforced by verify_eval, and three findings about it as theorems: twice the intended degree is accepted (C39_twice_refuted), any claimed values are accepted for expand_factor = 1 (C39_vacuous_refuted) and for few queries, by choosing the final polynomial after the queries are known (C39_late_final_refuted).",
  "status": "proved"
 },
 "C40": {
  "note": "Histories of calls are arbitrary (append, commit, mark_batch_as_fixed, setup, evaluation points in any order that violates no assertion). C40_wrong_value is the soundness half, for claimed values fixed before theta. The code does not put the claimed values into the transcript before theta is drawn: C40_forged_refuted shows that every accepted proof can be turned into an accepted proof with any chosen value; C40_unchecked_refuted shows that values after the first for a repeated point are never looked at.",
  "status": "proved"
 },
 "C41": {
  "note": "Simple KZG scheme over abstract modules and a bilinear pairing: completeness, commit, exactness (acceptance iff the claimed value is p(z), relative to the trapdoor) and refusal of too long polynomials.",
  "status": "proved"
 },
 "C42": {
  "note": "Any history of API calls on the prover's scheme object and the mirrored history on the verifier's: the proof is produced and accepted, for both versions; also the static batched functions. Finding: version 2 divides by zero on an empty committed batch, and its two transcripts differ afterwards by the last message.",
  "status": "proved"
 },
 "C43": {
  "note": "Shares verify, any set of at least t distinct shares reconstructs; a wrong share is refused when the group elements distinguish it.",
  "status": "proved"
 },
 "C44": {
  "note": "For every transcript implementation. C44_poseidon_mask_refuted records that the Poseidon integer challenge has only half of its bits.",
  "status": "proved"
 },
 "C45": {
  "note": "Accumulator after any history, acceptance of every honest contribution for all draws, soundness of one contribution and of a whole transcript up to probability 1/|F| per step (rarely_accepts), the Lagrange/H result. Hashing, serialisation and seeded generators are arbitrary functions. Findings: the points of a proof of knowledge are not hashed (C45_pok_rerandomised), only one byte of the hash is used (C45_pok_replayed), zero contributions are accepted (C45_zero_contribution), and after a zero beta the G2 beta is unchecked (C45_zero_beta_refuted).",
  "status": "proved"
 },
 "C46": {
  "note": "Both phases: the key pair after any sequence of contributions is the generator's key for gamma = 1 and delta the product (same_key: equal in every field, the sparse B query compared entry by entry), it verifies for every draw, proofs made with it are accepted, and (C46_sound) any other key pair with a non-zero delta is accepted with probability at most 1/|F|. Hashing, seeding, serialisation and the transcript are arbitrary functions. C46_no_contribution: the untouched initial key (delta = 1) verifies with an empty list.",
  "status": "proved"
 },
 "C47": {
  "note": "Any number of chunks, including more chunks than entries.",
  "status": "proved"
 },
 "C48": {
  "note": "All histories of additions. The Merkle tree (snark/merkle_tree.hpp is missing from the repository) is modelled as a complete binary hash tree: an assumption about the dependency. is_in_set is exact up to collisions of the hash of the values; soundness and binding exhibit a collision of the node hash otherwise. Finding: max_entries is not enforced, only the next power of two.",
  "status": "proved"
 },
 "C49": {
  "note": "C49_accepted: for every accepted proof and every query whose Merkle positions are the expected ones, the committed vectors are consistent (spec folding written independently in Spec/FriSpec.v) or the hashing is broken. C49_position_refuted: positions are not compared by the verifier, so a two-valued vector is accepted with any number of queries under collision-free hashing (assumes, as Model/Fri.v states, that crypto3-containers' validate(leaf) takes the position from the proof). The passage from per-query consistency to proximity (FRI soundness error) is not proved.",
  "status": "proved"
 },
 "C50": {
  "note": "C50_complete / C50_generates / C50_witness_independent / C50_weak_exact / C50_strong_exact. Witness independence needs the evaluation point outside the domain. The assertion of the generator is a parameter (compiled in or not). C50_extracts is knowledge soundness against algebraic (linear) provers; that real provers are linear is a hardness assumption and not stated.",
  "status": "proved"
 },
 "C51": {
  "note": "C51_extracts is knowledge soundness against algebraic (linear) provers: V_g2 may be arbitrary. Finding: with assertions the generator aborts for every system with an unused public input (C51_unused_input_refuted). Witness independence needs the evaluation point outside the domain.",
  "status": "proved"
 },
 "C52": {
  "note": "C52_extracts is knowledge soundness against algebraic (linear) provers: the G2 element of the proof may be arbitrary. Simulation extractability (extraction in the presence of simulated proofs) is not stated. Finding: the weak verifier has no length check and ignores inputs beyond the key's (C52_excess_input_refuted).",
  "status": "proved"
 },
 "C53": {
  "note": "Finding: C53_tbcs_generates_refuted. The type of r1cs_va in bacs_ppzksnark/prover.hpp:73 names a PLONK constraint system; the model reads it as the vector of field elements witness_map returns.",
  "status": "proved"
 },
 "C54": {
  "note": "Knowledge soundness against algebraic (linear) provers; the knowledge-of-exponent assumption that real provers are linear is not modelled. gamma may be any one non-zero value.",
  "status": "proved"
 },
 "C55": {
  "note": "Findings: C55_count_refuted, C55_defined_refuted. Knowledge soundness of the inner product argument rests on binding of the commitments and is not claimed.",
  "status": "proved"
 },
 "C56": {
  "note": "The bound on the degree is twice the one asked for (finding C49) and Merkle openings at wrong positions are excluded by hypothesis (finding C49_position_refuted).",
  "status": "proved"
 },
 "C57": {
  "note": "The encryption itself is in the pubkey library, outside of /repo: its keys and ciphertexts are specified in Spec/EncryptedSpec.v. Finding: C57_number_refuted.",
  "status": "proved"
 },
 "C58": {
  "note": "The claimed values must be fixed before theta for C58_few to bound anything; the code does not enforce that (C40_forged_refuted). The points of the claims must be outside of the domain.",
  "status": "proved"
 },
 "C59": {
  "note": "Findings: C59_forged, C59_bound_refuted, C59_sub_refuted, C59_multi_scalar_refuted.",
  "status": "proved"
 },
 "C60": {
  "note": "Runs are accepted when the two equations of the verifier hold; C59 relates them to verify_eval. Finding: C60_padding_forged.",
  "status": "proved"
 },
 "C61": {
  "note": "The Poseidon sponge and the conversions between field elements and limbs are arbitrary functions. Finding: C61_stale.",
  "status": "proved"
 },
 "C62": {
  "note": "The conversion from expressions to tokens is not in the code: it is part of the specification. Findings: C62_combine_refuted, C62_public_refuted, C62_missing_column.",
  "status": "proved"
 },
 "C63": {
  "note": "The theorem about the identity is for a linearization without further gates. Findings: C63_shared_alpha_refuted, C63_lookup_dropped_refuted.",
  "status": "proved"
 }
}