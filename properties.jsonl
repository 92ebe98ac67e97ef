{"id": "C01", "title": "Linear combinations denote sums and are built sorted", "statement": "Building a linear combination from any list of terms, and adding, subtracting, negating or scaling linear combinations, yields an object whose evaluate() on any assignment equals the mathematical sum of the denoted terms; the constructor and operator+ (on constructor-built operands) return terms with strictly increasing variable indices, so is_valid() holds exactly when the largest index is below the variable count.", "quantifier": "all term lists (repeated indices, zero coefficients, any order), all scalars, all assignments long enough for the indices, any field", "why_tests_cant": "infinitely many term lists and field elements; the merge loop has many interleavings", "anchors": ["include/nil/crypto3/zk/math/linear_combination.hpp:linear_combination, evaluate, operator+, operator-, operator*, is_valid"]}
{"id": "C02", "title": "R1CS is_satisfied is exactly the constraint semantics; A/B swap is invisible", "statement": "r1cs_constraint_system::is_satisfied(primary, auxiliary) returns true iff sizes match and every constraint's <A,x>*<B,x> = <C,x>; swap_AB_if_beneficial never changes the set of satisfying assignments, for any constraint system.", "quantifier": "all constraint systems, all assignments, any field", "why_tests_cant": "unbounded systems and assignments", "anchors": ["include/nil/crypto3/zk/snark/arithmetization/constraint_satisfaction_problems/r1cs.hpp:is_satisfied, swap_AB_if_beneficial", "include/nil/crypto3/zk/snark/arithmetization/constraint_satisfaction_problems/uscs.hpp:is_satisfied"]}
{"id": "C03", "title": "BACS circuits reduce to equivalent R1CS", "statement": "For every bilinear circuit that is_valid, the R1CS built by bacs_to_r1cs is satisfied by (primary, witness_map output) iff the circuit is satisfied by (primary, auxiliary); conversely in every satisfying R1CS assignment the wire values are the ones the circuit computes and the circuit is satisfied.", "quantifier": "all valid circuits of any size and topology, all inputs, any field", "why_tests_cant": "circuits are unbounded; soundness direction ranges over all adversarial assignments", "anchors": ["include/nil/crypto3/zk/snark/reductions/bacs_to_r1cs.hpp:instance_map, witness_map", "include/nil/crypto3/zk/snark/arithmetization/circuit_satisfaction_problems/bacs.hpp"]}
{"id": "C04", "title": "TBCS circuits reduce to equivalent USCS", "statement": "For every valid two-input boolean circuit: honest evaluation satisfying the circuit gives a satisfying USCS assignment, and any USCS assignment satisfying the produced system whose values are boolean encodes a satisfying circuit run; over fields of characteristic not 2,3,5,7 non-boolean assignments are excluded as well.", "quantifier": "all valid circuits built of the 16 gate types, all inputs", "why_tests_cant": "unbounded circuits; adversarial field-valued wires cannot be enumerated", "anchors": ["include/nil/crypto3/zk/snark/reductions/tbcs_to_uscs.hpp:instance_map, witness_map", "include/nil/crypto3/zk/snark/arithmetization/circuit_satisfaction_problems/tbcs.hpp"]}
{"id": "C05", "title": "R1CS to QAP reduction is complete and sound", "statement": "If (primary,aux) satisfies the R1CS then witness_map produces, for every choice of d1,d2,d3 and every evaluation point t, a QAP witness accepted by the instance evaluation at t; conversely if a witness with fixed coefficients is accepted at more points than the degree bound allows (in particular as polynomials) then the assignment satisfies the R1CS.", "quantifier": "all R1CS, assignments, d1,d2,d3, t; any field containing the evaluation domain", "why_tests_cant": "field-sized quantifiers, unbounded systems", "anchors": ["include/nil/crypto3/zk/snark/reductions/r1cs_to_qap.hpp", "include/nil/crypto3/zk/snark/arithmetization/arithmetic_programs/qap.hpp"]}
{"id": "C06", "title": "R1CS to SAP reduction is complete and sound", "statement": "Same equivalence for the square arithmetic program produced by r1cs_to_sap: satisfying assignments give accepted SAP witnesses for all d1,d2,t, and acceptance as polynomials implies the R1CS is satisfied.", "quantifier": "all R1CS, assignments, d1, d2, t", "why_tests_cant": "field-sized quantifiers, unbounded systems", "anchors": ["include/nil/crypto3/zk/snark/reductions/r1cs_to_sap.hpp", "include/nil/crypto3/zk/snark/arithmetization/arithmetic_programs/sap.hpp"]}
{"id": "C07", "title": "USCS to SSP reduction is complete and sound", "statement": "Same equivalence for the square span program produced by uscs_to_ssp: satisfying assignments give accepted SSP witnesses for all d,t, and acceptance as polynomials implies every constraint (lc)^2=1 holds.", "quantifier": "all USCS, assignments, d, t", "why_tests_cant": "field-sized quantifiers, unbounded systems", "anchors": ["include/nil/crypto3/zk/snark/reductions/uscs_to_ssp.hpp", "include/nil/crypto3/zk/snark/arithmetization/arithmetic_programs/ssp.hpp"]}
{"id": "C08", "title": "Groth16 completeness", "statement": "For every R1CS, satisfying assignment, trapdoor (t,alpha,beta,gamma,delta with gamma,delta nonzero) and prover randomness r,s the proof returned by the prover with the generated key is accepted by the strong-input-consistency verifier.", "quantifier": "all R1CS, assignments, trapdoors, randomness, any bilinear group of prime order", "why_tests_cant": "group-sized randomness and unbounded systems", "anchors": ["include/nil/crypto3/zk/snark/systems/ppzksnark/r1cs_gg_ppzksnark/generator.hpp", "include/nil/crypto3/zk/snark/systems/ppzksnark/r1cs_gg_ppzksnark/prover.hpp", "include/nil/crypto3/zk/snark/systems/ppzksnark/r1cs_gg_ppzksnark/verifier.hpp"]}
{"id": "C09", "title": "Groth16 proofs are perfectly witness-independent", "statement": "For any two satisfying witnesses of the same primary input there is a bijection on prover randomness (r,s) under which the proofs are identical; every accepted (A,B) determines C.", "quantifier": "all systems, witness pairs, randomness", "why_tests_cant": "statement about distributions over all randomness", "anchors": ["include/nil/crypto3/zk/snark/systems/ppzksnark/r1cs_gg_ppzksnark/prover.hpp"]}
{"id": "C10", "title": "Groth16 input consistency", "statement": "The weak verifier on a shorter input behaves as on that input padded with zeros, the strong verifier rejects every input whose length differs from the key's, and both agree on exact-length inputs; the online (processed key) and offline verifiers agree.", "quantifier": "all keys, inputs, proofs", "why_tests_cant": "all lengths and values", "anchors": ["include/nil/crypto3/zk/snark/systems/ppzksnark/r1cs_gg_ppzksnark/verifier.hpp"]}
{"id": "C11", "title": "integer_permutation is_valid / inverse / slice", "statement": "is_valid() is true iff the stored data is a permutation of its range; inverse() of a valid permutation composes to the identity on both sides and is valid; slice(a,b) of a permutation preserving [a,b] is the restriction.", "quantifier": "all ranges and contents", "why_tests_cant": "factorially many permutations", "anchors": ["include/nil/crypto3/zk/math/integer_permutation.hpp"]}
{"id": "C12", "title": "Benes routing realises every permutation", "statement": "For every permutation of 2^k packets the computed Benes switch settings route every packet to its destination and validate.", "quantifier": "all k, all permutations of 2^k", "why_tests_cant": "(2^k)! permutations", "anchors": ["include/nil/crypto3/zk/snark/routing/benes.hpp"]}
{"id": "C13", "title": "AS-Waksman routing realises every permutation", "statement": "For every n>=2 and permutation of n packets get_as_waksman_routing terminates and its switch settings on the generated topology move every packet to its destination (valid_as_waksman_routing is true).", "quantifier": "all n >= 2 (one packet is outside the topology's precondition and is recorded as a finding), all permutations of n", "why_tests_cant": "n! permutations for every n", "anchors": ["include/nil/crypto3/zk/snark/routing/as_waksman.hpp"]}
{"id": "C14", "title": "Expression operators preserve meaning", "statement": "The value of e1+e2, e1-e2, e1*e2, -e, pow(e,n) and scalar variants, including the short-cuts for zero/empty terms, equals the field operation on the values, for every assignment.", "quantifier": "all expressions, assignments", "why_tests_cant": "infinite expression trees", "anchors": ["include/nil/crypto3/zk/math/expression.hpp"]}
{"id": "C15", "title": "Cached expression evaluation equals plain evaluation", "statement": "cached_expression_evaluator returns the same value as expression_evaluator for every expression, however subexpressions repeat, and the cache is empty of stale entries.", "quantifier": "all expressions, all assignments, all repetition patterns", "why_tests_cant": "infinite trees and sharing patterns", "anchors": ["include/nil/crypto3/zk/math/expression_evaluator.hpp"]}
{"id": "C16", "title": "Degree visitor bounds the true degree", "statement": "expression_max_degree_visitor::compute_max_degree(e) is at least the total degree of the polynomial e denotes (so sizing by it never truncates), and substituting univariate polynomials of degree < n for variables gives degree at most (n-1)*deg.", "quantifier": "all expressions, all substitutions", "why_tests_cant": "infinite expression trees", "anchors": ["include/nil/crypto3/zk/math/expression_visitors.hpp:expression_max_degree_visitor"]}
{"id": "C17", "title": "Conversion to a flat sum of monomials preserves value", "statement": "expression_to_non_linear_combination_visitor yields a list of monomials whose sum equals the expression's value on every assignment (merging equal monomials preserves it).", "quantifier": "all expressions and assignments", "why_tests_cant": "infinite trees", "anchors": ["include/nil/crypto3/zk/math/expression_visitors.hpp", "include/nil/crypto3/zk/math/non_linear_combination.hpp"]}
{"id": "C18", "title": "Equality and hashing of expressions are consistent", "statement": "Terms/expressions that compare equal have equal hashes and equal values, so hash-map caching cannot confuse distinct values; equality of terms is multiset equality of variables plus coefficient.", "quantifier": "all pairs of expressions", "why_tests_cant": "infinite domain", "anchors": ["include/nil/crypto3/zk/math/expression.hpp"]}
{"id": "C19", "title": "Column numbering is a bijection", "statement": "global_index maps the valid variables of the four column kinds bijectively onto [0,table_width) and table[global_index(v)] is v's column; out-of-range access throws.", "quantifier": "all table shapes and variables", "why_tests_cant": "all shapes", "anchors": ["include/nil/crypto3/zk/snark/arithmetization/plonk/table_description.hpp", "include/nil/crypto3/zk/snark/arithmetization/plonk/assignment.hpp"]}
{"id": "C20", "title": "Padding preserves data and yields a usable power of two", "statement": "Padding leaves every original cell unchanged, reports usable_rows = the original height, makes all columns the same length, a power of two at least 8 and strictly greater than usable_rows.", "quantifier": "all tables", "why_tests_cant": "all heights", "anchors": ["include/nil/crypto3/zk/snark/arithmetization/plonk/padding.hpp"]}
{"id": "C21", "title": "Copy constraints become exactly the permutation's cycles", "statement": "After applying any list of copy constraints the preprocessor's permutation is a bijection on cells, two cells are in the same cycle iff connected by the copy constraints, and the construction terminates; hence a table is invariant under the permutation iff it satisfies every copy constraint.", "quantifier": "all tables sizes, all lists of copy constraints in any order with repetitions", "why_tests_cant": "unbounded histories of merges", "anchors": ["include/nil/crypto3/zk/snark/systems/plonk/placeholder/preprocessor.hpp:cycle_representation"]}
{"id": "C22", "title": "Permutation argument completeness", "statement": "If the table satisfies all copy constraints then for all challenges with nonvanishing denominators the grand product computed by the prover closes (equals one at the last usable row) and all three permutation constraints vanish on every row, in both the single-part and multi-part variants.", "quantifier": "all tables, copy constraints, challenges, chunk sizes", "why_tests_cant": "challenge space is field-sized", "anchors": ["include/nil/crypto3/zk/snark/systems/plonk/placeholder/permutation_argument.hpp:prove_eval"]}
{"id": "C23", "title": "Permutation argument soundness", "statement": "If the permutation constraints vanish on all rows for more challenge pairs than the degree bound allows (in particular for all), then the column values satisfy every copy constraint.", "quantifier": "all columns, permutations, challenge sets larger than the bound", "why_tests_cant": "quantifies over challenge sets", "anchors": ["include/nil/crypto3/zk/snark/systems/plonk/placeholder/permutation_argument.hpp"]}
{"id": "C24", "title": "Permutation argument prover/verifier agreement", "statement": "The verifier's verify_eval on honest evaluations returns exactly the prover's constraint polynomials evaluated at the challenge, for one or several parts.", "quantifier": "all polynomials, challenges, chunkings", "why_tests_cant": "field-sized", "anchors": ["include/nil/crypto3/zk/snark/systems/plonk/placeholder/permutation_argument.hpp:prove_eval, verify_eval"]}
{"id": "C25", "title": "Lookup sorting is the merged multiset", "statement": "For lookup inputs contained in tables meeting the documented layout, sort_polynomials returns a sorted sequence whose adjacent pairs are exactly the table's adjacent pairs plus one repeated pair per input, with columns chained end to start.", "quantifier": "all tables and inputs", "why_tests_cant": "all multisets", "anchors": ["include/nil/crypto3/zk/snark/systems/plonk/placeholder/lookup_argument.hpp:sort_polynomials"]}
{"id": "C26", "title": "Lookup argument completeness", "statement": "If every lookup input occurs in its table then for all challenges with nonvanishing denominators the lookup grand product closes and all lookup constraints vanish on every row.", "quantifier": "all tables, inputs, challenges", "why_tests_cant": "field-sized", "anchors": ["include/nil/crypto3/zk/snark/systems/plonk/placeholder/lookup_argument.hpp"]}
{"id": "C27", "title": "Lookup argument prover/verifier agreement", "statement": "verify_eval of the lookup argument equals the prover's constraint polynomials at the challenge.", "quantifier": "all polynomials, challenges, part lists", "why_tests_cant": "field-sized", "anchors": ["include/nil/crypto3/zk/snark/systems/plonk/placeholder/lookup_argument.hpp"]}
{"id": "C28", "title": "Lookup part packing covers every lookup", "statement": "lookup_parts partitions the lookup constraints and table options in order: part sizes sum to their number, every part is nonempty and its total degree stays below the bound.", "quantifier": "all constraint systems, all bounds", "why_tests_cant": "all sequences of degrees", "anchors": ["include/nil/crypto3/zk/snark/arithmetization/plonk/constraint_system.hpp:lookup_parts"]}
{"id": "C29", "title": "Gate argument prover/verifier agreement", "statement": "The gate polynomial computed by the prover (with its degree buckets and caching) evaluates at the challenge to the verifier's verify_eval result, and vanishes on all masked rows iff (for all theta) every gate constraint holds on every usable selected row.", "quantifier": "all gates, columns, theta, challenge", "why_tests_cant": "field-sized", "anchors": ["include/nil/crypto3/zk/snark/systems/plonk/placeholder/gates_argument.hpp"]}
{"id": "C30", "title": "Quotient splitting recombines", "statement": "split_polynomial followed by the verifier's recombination sum T_i(y) y^(rows*i) equals the original polynomial at y; every chunk has degree at most max_degree.", "quantifier": "all polynomials, chunk sizes, points", "why_tests_cant": "all polynomials", "anchors": ["include/nil/crypto3/zk/snark/systems/plonk/placeholder/prover.hpp:split_polynomial", "include/nil/crypto3/zk/snark/systems/plonk/placeholder/verifier.hpp"]}
{"id": "C31", "title": "Verifier reads only evaluations that were opened", "statement": "Every (column, rotation) that the placeholder verifier needs to evaluate gates, lookups and permutation terms is among the evaluation points it registers, so no default value is ever used.", "quantifier": "all constraint systems", "why_tests_cant": "all expressions and rotations", "anchors": ["include/nil/crypto3/zk/snark/systems/plonk/placeholder/preprocessor.hpp:columns_rotations", "include/nil/crypto3/zk/snark/systems/plonk/placeholder/verifier.hpp"]}
{"id": "C32", "title": "Prover and verifier open the same points", "statement": "generate_evaluation_points on the prover and verifier side register identical points for every batch and polynomial.", "quantifier": "all circuits, challenges", "why_tests_cant": "all circuits", "anchors": ["include/nil/crypto3/zk/snark/systems/plonk/placeholder/prover.hpp:generate_evaluation_points", "include/nil/crypto3/zk/snark/systems/plonk/placeholder/verifier.hpp:generate_evaluation_points"]}
{"id": "C33", "title": "Placeholder final identity: completeness and soundness over polynomials", "statement": "For an honest table satisfying gates, copy constraints and lookups the verifier's final equation holds at every challenge outside the domain; and if the identity holds at more points than its degree, the combined constraint polynomial vanishes on the domain.", "quantifier": "all circuits, tables and challenges", "why_tests_cant": "field-sized", "anchors": ["include/nil/crypto3/zk/snark/systems/plonk/placeholder/prover.hpp:quotient_polynomial", "include/nil/crypto3/zk/snark/systems/plonk/placeholder/verifier.hpp:process"]}
{"id": "C34", "title": "Public inputs are bound", "statement": "The verifier overload taking public inputs accepts only if the opened value of each public input column equals the value, at the challenge, of the column polynomial made of the supplied values; for honest proofs with matching inputs it accepts.", "quantifier": "all public inputs, proofs", "why_tests_cant": "adversarial proofs", "anchors": ["include/nil/crypto3/zk/snark/systems/plonk/placeholder/verifier.hpp:process"]}
{"id": "C35", "title": "Packing lookup tables keeps every row", "statement": "Packing lookup tables into constant columns places every row of every table at a row selected by that table's selector, and selects no other row.", "quantifier": "all collections of tables", "why_tests_cant": "all sizes", "anchors": ["include/nil/crypto3/zk/snark/arithmetization/plonk/lookup_table_definition.hpp:pack_lookup_tables, pack_lookup_tables_horizontal"]}
{"id": "C36", "title": "FRI folding is polynomial folding", "statement": "Folding in coefficient form and in evaluation form agree; the folded polynomial at x^2 equals the line through (x,f(x)),(-x,f(-x)) evaluated at alpha; folding halves the degree bound.", "quantifier": "all polynomials, alpha, domains of size 2^k", "why_tests_cant": "field-sized", "anchors": ["include/nil/crypto3/zk/commitments/detail/polynomial/fold_polynomial.hpp"]}
{"id": "C37", "title": "FRI leaf layout agrees between committer and verifier", "statement": "For every query index, domain size and step, the order in which the verifier reassembles coset values reproduces the leaf hashed at commitment for the folded index, and the coset is exactly the preimage of the folded point.", "quantifier": "all domain sizes 2^k, steps, indices", "why_tests_cant": "all indices and sizes", "anchors": ["include/nil/crypto3/zk/commitments/detail/polynomial/basic_fri.hpp:precommit, calculate_s, get_correct_order, get_folded_index"]}
{"id": "C38", "title": "FRI completeness", "statement": "For every step list accepted by check_step_list and every polynomial within the degree bound, the honest FRI proof is accepted for every transcript.", "quantifier": "all polynomials, step lists, transcripts", "why_tests_cant": "oracle-sized", "anchors": ["include/nil/crypto3/zk/commitments/detail/polynomial/basic_fri.hpp:proof_eval, verify_eval"]}
{"id": "C39", "title": "What the FRI degree check guarantees", "statement": "verify_eval accepts a final polynomial only if it has at least one and at most 2*(max_degree+1)/2^r coefficients, and rejects every other one. The intended bound (max_degree+1)/2^r is not enforced: combined polynomials with up to twice the intended number of coefficients are accepted, acceptance says nothing when expand_factor is 1, and since the final polynomial is not absorbed by the transcript it says nothing when there are no more queries than coefficients allowed in the final polynomial.", "quantifier": "all parameters, final polynomials, claimed values and transcripts", "why_tests_cant": "all parameter sets", "anchors": ["include/nil/crypto3/zk/commitments/detail/polynomial/basic_fri.hpp:verify_eval, params_type"]}
{"id": "C40", "title": "LPC batch opening is complete and binds each evaluation", "statement": "The combined quotient built by the prover equals the verifier's recombination at every domain point for honest evaluations, and if any claimed evaluation is wrong the combination fails to be a polynomial for all but few theta.", "quantifier": "all batches, points, theta", "why_tests_cant": "field-sized", "anchors": ["include/nil/crypto3/zk/commitments/polynomial/lpc.hpp:proof_eval, verify_eval", "include/nil/crypto3/zk/commitments/batched_commitment.hpp"]}
{"id": "C41", "title": "KZG opening completeness and exactness", "statement": "commit/proof_eval/verify_eval accept for every polynomial within the key size and every point; for a fixed commitment to f and point z != alpha a proof accepts value v only if the proof equals the quotient (f(alpha)-v)/(alpha-z).", "quantifier": "all polynomials, points, trapdoors", "why_tests_cant": "field-sized", "anchors": ["include/nil/crypto3/zk/commitments/polynomial/kzg.hpp:commit, proof_eval, verify_eval"]}
{"id": "C42", "title": "Batched KZG completeness (both schemes)", "statement": "For all batches of polynomials with distinct evaluation points per polynomial the batched opening proofs of kzg_commitment_scheme and kzg_commitment_scheme_v2 are accepted for every transcript.", "quantifier": "all batches, point sets, challenges", "why_tests_cant": "field-sized", "anchors": ["include/nil/crypto3/zk/commitments/polynomial/kzg.hpp:kzg_commitment_scheme", "include/nil/crypto3/zk/commitments/polynomial/kzg_v2.hpp"]}
{"id": "C43", "title": "Pedersen secret sharing opens to the message", "statement": "Honest proofs verify, and any k distinct share indices recover the committed message; fewer than k shares yield the refusal value.", "quantifier": "all n,k, secrets, polynomials, index sets", "why_tests_cant": "field-sized", "anchors": ["include/nil/crypto3/zk/commitments/polynomial/pedersen.hpp"]}
{"id": "C44", "title": "Proof of work round trip", "statement": "If grinding returns a nonce then verification with the same mask accepts and leaves prover and verifier transcripts in the same state.", "quantifier": "all transcripts, masks, hash functions", "why_tests_cant": "hash oracle", "anchors": ["include/nil/crypto3/zk/commitments/detail/polynomial/proof_of_work.hpp", "include/nil/crypto3/zk/transcript/fiat_shamir.hpp"]}
{"id": "C45", "title": "Powers-of-tau ceremony invariant", "statement": "Starting from the initial accumulator, after any sequence of contributions the accumulator holds consecutive powers of the product of taus (times products of alphas/betas) and each contribution verifies.", "quantifier": "all sequences of contributions", "why_tests_cant": "all histories", "anchors": ["include/nil/crypto3/zk/commitments/polynomial/powers_of_tau.hpp", "include/nil/crypto3/zk/commitments/detail/polynomial/powers_of_tau/accumulator.hpp"]}
{"id": "C46", "title": "Groth16 MPC produces the Groth16 key", "statement": "After any sequence of phase-2 contributions the key pair is the Groth16 key for delta = the product of the contributions and verifies, and proofs made with it are accepted.", "quantifier": "all circuits, contribution sequences", "why_tests_cant": "all histories", "anchors": ["include/nil/crypto3/zk/commitments/polynomial/r1cs_gg_ppzksnark_mpc.hpp", "include/nil/crypto3/zk/commitments/detail/polynomial/r1cs_gg_ppzksnark_mpc/crs_operations.hpp"]}
{"id": "C47", "title": "Knowledge-commitment vectors are chunk independent", "statement": "kc_batch_exp yields the same sparse vector (strictly increasing indices, one entry per nonzero scalar) for every suggested number of chunks, and kc_multiexp over it is the full inner product.", "quantifier": "all vectors, all chunk counts", "why_tests_cant": "thread-count independent", "anchors": ["include/nil/crypto3/zk/commitments/polynomial/knowledge_commitment_multiexp.hpp"]}
{"id": "C48", "title": "Set commitment membership", "statement": "After any sequence of add() calls is_in_set answers exactly for the added elements and get_membership_proof verifies against the current root for each of them.", "quantifier": "all histories of additions within capacity", "why_tests_cant": "unbounded histories", "anchors": ["include/nil/crypto3/zk/snark/set_commitment.hpp"]}
{"id": "C49", "title": "What the FRI verifier's queries guarantee", "statement": "If the FRI verifier accepts a proof, then for every query whose Merkle proofs open the leaves determined by the query point: the query point is in the evaluation domain; the vector committed in the first round has, at every point of the opened coset, the value of the combination of the committed polynomials with the claimed values and denominators; each committed vector, folded with the round challenges, has the value of the next committed vector at the power of the query point; and the last folded value is that of the final polynomial - unless a collision of the hash function is exhibited. The verifier does not compare the position inside a Merkle proof with the query index: with that freedom a vector that is far from the claimed degree is accepted with any number of queries.", "quantifier": "all fields, hash functions, transcripts, parameters (step lists, degree, blow-up, number of queries), commitments, claimed values, proofs (honest or not) and query challenges", "why_tests_cant": "soundness quantifies over all proofs a dishonest prover can send; tests only feed honest proofs and a few corrupted ones", "anchors": ["include/nil/crypto3/zk/commitments/detail/polynomial/basic_fri.hpp: verify_eval, calculate_s, get_correct_order", "include/nil/crypto3/zk/commitments/detail/polynomial/fold_polynomial.hpp"]}
{"id": "C50", "title": "R1CS ppzkSNARK (PGHR13): completeness, witness independence, exact verifiers, extraction from linear strategies", "statement": "Whenever the r1cs_ppzksnark generator returns a key pair, the prover succeeds on every satisfying assignment with any randomness and the strong verifier accepts the proof; the generator's assertion can only stop it for few evaluation points; for two witnesses of the same public input there is a bijection of the prover's randomness that gives identical proofs; the weak verifier decides exactly the published pairing equations for the input padded with zeros, the strong one additionally rejects every other input length; and a dishonest prover that outputs fixed linear combinations of the key elements accepted for many trapdoors has a satisfying witness for the claimed input among its coefficients.", "quantifier": "all fields, groups, bilinear pairings, constraint systems, evaluation domains, trapdoors, assignments, randomness; all (also dishonest) proofs for the verifiers; all linear strategies", "why_tests_cant": "quantifies over all constraint systems, witnesses, trapdoors and randomness; equality of distributions cannot be observed by a test", "anchors": ["include/nil/crypto3/zk/snark/systems/ppzksnark/r1cs_ppzksnark/generator.hpp: r1cs_ppzksnark_generator::process", "include/nil/crypto3/zk/snark/systems/ppzksnark/r1cs_ppzksnark/prover.hpp: r1cs_ppzksnark_prover::process", "include/nil/crypto3/zk/snark/systems/ppzksnark/r1cs_ppzksnark/verifier.hpp: r1cs_ppzksnark_verifier_weak_input_consistency, r1cs_ppzksnark_verifier_strong_input_consistency"]}
{"id": "C51", "title": "USCS ppzkSNARK (DFGK14): completeness, witness independence, exact verifiers, extraction from linear strategies", "statement": "Whenever the uscs_ppzksnark generator returns a key pair, the prover succeeds on every satisfying assignment with any randomness and the strong verifier accepts; with assertions compiled in the generator returns for all but few evaluation points if every public input is used, and never if one is unused; for two witnesses of the same public input a bijection of the prover's randomness gives identical proofs; the verifiers decide exactly the published pairing equations (weak: input padded with zeros, strong: only the key's input length); and a dishonest prover that outputs fixed linear combinations of the key elements accepted for many trapdoors has a satisfying witness among its coefficients.", "quantifier": "all fields, groups, bilinear pairings, constraint systems, evaluation domains, trapdoors, assignments, randomness; all (also dishonest) proofs for the verifiers; all linear strategies", "why_tests_cant": "quantifies over all systems, witnesses, trapdoors, randomness and dishonest provers", "anchors": ["include/nil/crypto3/zk/snark/systems/ppzksnark/uscs_ppzksnark/generator.hpp: uscs_ppzksnark_generator::process", "include/nil/crypto3/zk/snark/systems/ppzksnark/uscs_ppzksnark/prover.hpp: uscs_ppzksnark_prover::process", "include/nil/crypto3/zk/snark/systems/ppzksnark/uscs_ppzksnark/verifier.hpp: uscs_ppzksnark_verifier_weak_input_consistency, uscs_ppzksnark_verifier_strong_input_consistency"]}
{"id": "C52", "title": "Simulation-extractable R1CS ppzkSNARK (GM17): completeness, witness independence, exact verifiers, extraction from linear strategies", "statement": "The r1cs_se_ppzksnark generator returns a key pair exactly for evaluation points outside the domain; the prover succeeds on every satisfying assignment with any randomness and the strong verifier accepts; for two witnesses of the same public input a bijection of the prover's randomness gives identical proofs; the verifiers decide exactly the published pairing equations (weak: input padded with zeros or cut, strong: only the key's input length); and a dishonest prover that outputs fixed linear combinations of the key elements accepted for many trapdoors has a satisfying witness among its coefficients.", "quantifier": "all fields, groups, bilinear pairings, constraint systems, evaluation domains, trapdoors, assignments, randomness; all (also dishonest) proofs for the verifiers; all linear strategies (2 invertible)", "why_tests_cant": "quantifies over all systems, witnesses, trapdoors, randomness and dishonest provers", "anchors": ["include/nil/crypto3/zk/snark/systems/ppzksnark/r1cs_se_ppzksnark/generator.hpp: r1cs_se_ppzksnark_generator::process", "include/nil/crypto3/zk/snark/systems/ppzksnark/r1cs_se_ppzksnark/prover.hpp: r1cs_se_ppzksnark_prover::process", "include/nil/crypto3/zk/snark/systems/ppzksnark/r1cs_se_ppzksnark/verifier.hpp: r1cs_se_ppzksnark_verifier_weak_input_consistency, r1cs_se_ppzksnark_verifier_strong_input_consistency"]}
{"id": "C53", "title": "BACS and TBCS ppzkSNARKs: completeness, witness independence, key generation, extraction from linear strategies", "statement": "For every valid arithmetic (BACS) or two-input boolean (TBCS) circuit: whenever key generation returns, the prover succeeds on every primary and auxiliary input that satisfies the circuit and the strong verifier accepts the proof; two satisfying auxiliary inputs of the same primary input give identically distributed proofs; key generation with assertions fails only for few evaluation points (TBCS: if some wire is not a primary input); and a prover that answers with fixed linear combinations of the key elements accepted for many trapdoors determines an auxiliary input that satisfies the circuit.", "quantifier": "all fields (TBCS extraction: 2, 3, 5, 7 invertible), groups, bilinear pairings, valid circuits, evaluation domains, trapdoors, inputs, randomness, linear strategies (also dishonest)", "why_tests_cant": "quantifies over all circuits, inputs, trapdoors, randomness and dishonest provers", "anchors": ["include/nil/crypto3/zk/snark/systems/ppzksnark/bacs_ppzksnark/generator.hpp: bacs_ppzksnark_generator::process", "include/nil/crypto3/zk/snark/systems/ppzksnark/bacs_ppzksnark/prover.hpp: bacs_ppzksnark_prover::process", "include/nil/crypto3/zk/snark/systems/ppzksnark/bacs_ppzksnark/verifier.hpp", "include/nil/crypto3/zk/snark/systems/ppzksnark/tbcs_ppzksnark/generator.hpp: tbcs_ppzksnark_generator::process", "include/nil/crypto3/zk/snark/systems/ppzksnark/tbcs_ppzksnark/prover.hpp: tbcs_ppzksnark_prover::process", "include/nil/crypto3/zk/snark/systems/ppzksnark/tbcs_ppzksnark/verifier.hpp"]}
{"id": "C54", "title": "Groth16: extraction from linear strategies (knowledge soundness)", "statement": "A prover that answers with fixed linear combinations of the group elements it sees in the Groth16 proving and verification key, and that the strong verifier accepts for one claimed input under more than twice the domain size of evaluation points, two alphas, three betas and three deltas, has a satisfying auxiliary assignment for that input among its coefficients (those of C on the L query). The proof carries no other information: no accepted proof exists in this class for an unsatisfiable statement.", "quantifier": "all fields, groups, bilinear pairings, constraint systems, evaluation domains, claimed inputs and linear strategies (also dishonest)", "why_tests_cant": "quantifies over all dishonest linear provers and all systems", "anchors": ["include/nil/crypto3/zk/snark/systems/ppzksnark/r1cs_gg_ppzksnark/generator.hpp: r1cs_gg_ppzksnark_generator::basic_process", "include/nil/crypto3/zk/snark/systems/ppzksnark/r1cs_gg_ppzksnark/verifier.hpp: r1cs_gg_ppzksnark_verifier_strong_input_consistency", "include/nil/crypto3/zk/snark/systems/ppzksnark/r1cs_gg_ppzksnark/proving_key.hpp: r1cs_gg_ppzksnark_proving_key"]}
{"id": "C55", "title": "Groth16 proof aggregation: exactness, completeness, soundness of the batch, and of the merged checks", "statement": "Aggregating any 2^k >= 2 Groth16 proofs under a specialised reference string succeeds, and the aggregate verifier accepts the result exactly when the Groth16 equations of the proofs, combined with the powers of the transcript's challenge, hold. So aggregates of valid proofs are accepted whatever coefficients the verifier draws; and if the aggregate of the same proofs is accepted under as many distinct challenges as there are proofs, each proof is valid for its input. On any aggregated proof, from anyone, each of the nine randomised checks fails for all but at most one value of its coefficient unless its equation holds.", "quantifier": "all fields, groups, bilinear pairings, transcripts (functions to challenges other than 0 and 1), reference strings, numbers of proofs, proofs valid or not, inputs, coefficients; for the checks, all aggregated proofs", "why_tests_cant": "quantifies over all batches of proofs, transcripts, random coefficients and dishonest proofs", "anchors": ["include/nil/crypto3/zk/snark/systems/ppzksnark/r1cs_gg_ppzksnark/ipp2/srs.hpp: r1cs_gg_ppzksnark_aggregate_srs::specialize", "include/nil/crypto3/zk/snark/systems/ppzksnark/r1cs_gg_ppzksnark/ipp2/prover.hpp: aggregate_proofs, prove_tipp_mipp, gipa_tipp_mipp, prove_commitment_v, prove_commitment_w", "include/nil/crypto3/zk/snark/systems/ppzksnark/r1cs_gg_ppzksnark/ipp2/verifier.hpp: verify_aggregate_proof, verify_tipp_mipp, gipa_verify_tipp_mipp, verify_kzg_v, verify_kzg_w, pairing_check", "include/nil/crypto3/zk/snark/systems/ppzksnark/r1cs_gg_ppzksnark/ipp2/transcript.hpp: transcript", "include/nil/crypto3/zk/commitments/polynomial/kzg_ipp2.hpp: kzg_ipp2"]}
{"id": "C56", "title": "FRI proximity: accepted vectors are close to a polynomial, but for few challenges", "statement": "If the vectors committed to in the rounds of FRI are consistent with the final polynomial at all but E indices (E at most a third of what the degree leaves free), then, unless one of the folding challenges hides errors, the first vector agrees with a polynomial of the checked degree at all those indices. For each vector at most 2e+1 challenges hide errors, whatever the vector; and against any prover whose first vector is far from all such polynomials, at most a fraction (foldings)(E+1)/(challenges) of the challenge sequences leave the prover a consistent run. An accepted proof therefore shows that either every query fell into a fixed set of indices that leaves out more than E, or the combined vector agrees on that set with one polynomial.", "quantifier": "all fields, domains, step lists, vectors, challenges, numbers of errors within a third of the free degree, adaptive prover strategies, accepted proofs", "why_tests_cant": "quantifies over all vectors far from polynomials, all prover strategies and all challenges; tests sample a handful", "anchors": ["include/nil/crypto3/zk/commitments/detail/polynomial/basic_fri.hpp: verify_eval, proof_eval, check_step_list"]}
{"id": "C57", "title": "Groth16 with encrypted inputs: exactness, completeness, binding of the ciphertext", "statement": "With keys of the intended encryption, and whoever made ciphertext and proof: if the ciphertext decrypts to m, the verifier accepts exactly when the ciphertext carries the right tag and the proof, stripped of the encryption's blinding, is accepted by Groth16's verifier for m followed by the unencrypted inputs. So honest proofs and encryptions are accepted for all randomness, only one tag is accepted for a given ciphertext, and a proof accepted with two ciphertexts of the same randomness shows that they encrypt the same inputs unless the key is degenerate.", "quantifier": "all fields, groups, non-degenerate bilinear pairings, keys, numbers of encrypted inputs, ciphertexts, plaintexts, proofs, randomness, constraint systems and assignments", "why_tests_cant": "quantifies over all ciphertexts and proofs, honest or not, and all randomness", "anchors": ["include/nil/crypto3/zk/snark/systems/ppzksnark/r1cs_gg_ppzksnark/encrypted_input/verifier.hpp: r1cs_gg_ppzksnark_verifier_strong_input_consistency::process", "include/nil/crypto3/zk/snark/systems/ppzksnark/r1cs_gg_ppzksnark/encrypted_input/prover.hpp: r1cs_gg_ppzksnark_prover::process", "include/nil/crypto3/zk/snark/systems/ppzksnark/r1cs_gg_ppzksnark/encrypted_input/generator.hpp"]}
{"id": "C58", "title": "LPC soundness for arbitrary committed vectors: accepted claims are those of polynomials, and binding", "statement": "Let the Merkle roots commit to any vectors, not necessarily to polynomials. If an opening proof is accepted, then, unless the hash is broken, a FRI challenge hides errors or theta hides a wrong claim, either more than E indices are ones at which a query cannot succeed (and all queries missed them), or there are polynomials of the checked degree with all the claimed values at the claimed points whose values the committed vectors have at all the remaining indices. For claims fixed before theta, at most (n-1)(1 + nE) challenges theta hide anything, n the number of claims. Claims explained in this way are right if the vectors come from polynomials, and never contradict each other.", "quantifier": "all fields, vectors, claims, proofs, numbers of polynomials and points, parameters with 3E + degree bound <= domain size, challenges, transcripts and hash functions", "why_tests_cant": "quantifies over all provers and all challenges", "anchors": ["include/nil/crypto3/zk/commitments/polynomial/lpc.hpp: verify_eval", "include/nil/crypto3/zk/commitments/detail/polynomial/basic_fri.hpp: verify_eval", "include/nil/crypto3/zk/commitments/batched_commitment.hpp"]}
{"id": "C59", "title": "Kimchi polynomial commitment: commitments, exactness of the verifier, completeness, a forgery", "statement": "A commitment consists of one Pedersen commitment for each block of coefficients; sums, multiples and chunks of commitments are those of the committed blocks. The verifier of the inner product argument accepts exactly when one combination of two equations per batch (the opening equation and the equation of the last base) is zero; accepted for enough random elements means that all these equations hold, except that those of the first batch hold only in sum. Honest proofs for polynomials without degree bounds, or bounded by their number of coefficients, are accepted in batches of any number for all randomness unless a challenge is zero. But for any commitments and any claimed values there is a proof that a verifier of that single batch accepts for all its random elements.", "quantifier": "all fields, groups, bases, sponges, polynomials, points, batches, proofs (honest or not), challenges and randomness", "why_tests_cant": "quantifies over all proofs and batches, all polynomials and all randomness of prover and verifier", "anchors": ["include/nil/crypto3/zk/commitments/polynomial/kimchi_pedersen.hpp: commitment", "include/nil/crypto3/zk/commitments/polynomial/kimchi_pedersen.hpp: proof_eval", "include/nil/crypto3/zk/commitments/polynomial/kimchi_pedersen.hpp: verify_eval", "include/nil/crypto3/zk/commitments/polynomial/kimchi_pedersen.hpp: b_poly", "include/nil/crypto3/zk/commitments/polynomial/kimchi_pedersen.hpp: b_poly_coefficents", "include/nil/crypto3/zk/commitments/polynomial/kimchi_pedersen.hpp: combined_inner_product", "include/nil/crypto3/zk/commitments/polynomial/kimchi_pedersen.hpp: poly_comm"]}
{"id": "C60", "title": "Kimchi inner product argument: extraction, evaluation binding, forgery with padded bases", "statement": "From accepted runs of a prover with three challenges in each round and two last challenges, a polynomial and a blinding element can be computed (from the field elements of the runs alone) that open the combined commitment to the claimed value. If the number of bases is a power of two, a prover that knows the polynomial of the commitment and is accepted for another value yields a non-trivial linear relation between the bases, h and u. If the number of bases is not a power of two, this fails: a commitment to any polynomial can be opened at any point but 0 to any value, with all equations of the verifier satisfied.", "quantifier": "all fields, groups, bases, numbers of rounds, commitments, points, claimed values, challenges and provers (all accepted trees of runs)", "why_tests_cant": "quantifies over all provers and all their answers to different challenges", "anchors": ["include/nil/crypto3/zk/commitments/polynomial/kimchi_pedersen.hpp: verify_eval", "include/nil/crypto3/zk/commitments/polynomial/kimchi_pedersen.hpp: proof_eval", "include/nil/crypto3/zk/commitments/polynomial/kimchi_pedersen.hpp: b_poly", "include/nil/crypto3/zk/commitments/polynomial/kimchi_pedersen.hpp: commitment"]}
{"id": "C61", "title": "Kimchi transcript: challenges, decoding of challenges, powers of alpha", "statement": "The challenges of any sequence of absorptions and challenges on a new Kimchi transcript are those of a sponge without a buffer of limbs: each is drawn from all that was absorbed before. (Draws of a single limb after absorbing a scalar do not depend on it: the test that drops the buffer is inverted.) A challenge decodes to a endo + b for two numbers that depend only on its bits, are between 2^64 and 3 2^64 and determine the challenge. After any registrations, an argument gets consecutive powers of alpha from the sum of the numbers registered before it, and different arguments get disjoint ranges.", "quantifier": "all sponges, conversions, sequences of operations, challenges, fields, and sequences of registrations", "why_tests_cant": "quantifies over all sequences of operations and all 2^128 challenges", "anchors": ["include/nil/crypto3/zk/transcript/kimchi_transcript.hpp: DefaultFqSponge", "include/nil/crypto3/zk/snark/systems/plonk/pickles/detail/mapping.hpp: ScalarChallenge::to_field", "include/nil/crypto3/zk/snark/systems/plonk/pickles/alphas.hpp: Alphas"]}
{"id": "C62", "title": "Pickles: evaluation of linearization expressions, permutation and generic scalars, chunked evaluations", "statement": "The postfix tokens of an expression (with shared subexpressions stored once and loaded afterwards) evaluate to the value of the expression, and whether a token list evaluates depends only on the tokens and on sizes. The evaluations for previous challenges are the values of the low and the high part of the challenge polynomial. The permutation part of ft(zeta) together with the scalar of the last permutation commitment is the permutation argument over all 7 columns with its two boundary terms. The scalars of the generic gate are the weights of the ten coefficient columns. Combining chunk evaluations with zeta^m gives the evaluation of the polynomial. Refuted: with lookups, combining the evaluations writes to an empty vector; with a non-empty public input, the oracles write to an empty vector.", "quantifier": "all fields, domains of at least 4 points, points outside of the domain, expressions, token lists, evaluations, constants, challenges and chunk sizes", "why_tests_cant": "quantifies over all expressions (nesting and sharing) and all evaluations", "anchors": ["include/nil/crypto3/zk/snark/systems/plonk/pickles/expr.hpp: PolishToken::evaluate, variable_evaluate, unnormalized_lagrange_basis", "include/nil/crypto3/zk/snark/systems/plonk/pickles/permutation.hpp: eval_vanishes_on_last_4_rows", "include/nil/crypto3/zk/snark/systems/plonk/pickles/constraints.hpp: perm_scalars, gnrc_scalars", "include/nil/crypto3/zk/snark/systems/plonk/pickles/proof.hpp: proof_evaluation_type::combine", "include/nil/crypto3/zk/snark/systems/plonk/pickles/oracles.hpp: prev_chal_evals, oracles (public evaluations, ft_eval0)"]}
{"id": "C63", "title": "Pickles verifier: the identity that the linearization checks", "statement": "For all registrations of powers of alpha and all evaluations, the combination of commitments that the verifier builds for the permutation and the generic gate, minus ft(zeta), is the permutation constraint, its two boundaries and the two generic constraints weighted with powers of alpha. Refuted: that different constraints get different powers. The generic gates get the powers of the permutation, so that a violated permutation and a violated gate cancel for every alpha. Refuted: that the terms of lookup selectors and lookup tables are part of the combination when lookups are used; they are dropped exactly then.", "quantifier": "all fields, registrations, challenges, evaluations, coefficients, shifts and points", "why_tests_cant": "quantifies over all challenges alpha and all evaluations; an honest run does not show the cancellation", "anchors": ["include/nil/crypto3/zk/snark/systems/plonk/pickles/verifier.hpp: verifier::to_batch", "include/nil/crypto3/zk/snark/systems/plonk/pickles/oracles.hpp: oracles (ft_eval0)", "include/nil/crypto3/zk/snark/systems/plonk/pickles/alphas.hpp: Alphas::get_alphas"]}
