# Formal model of NilFoundation/crypto3-zk in Rocq

## Layout

* `properties.jsonl` - the properties, in API terms.
* `rocq/theories/` - the development (logical name `Verif`):
  * `Model/*.v` - executable Gallina definitions, one per C++ function, each with a comment citing file and lines in
    `/repo/include/nil/crypto3/zk/`. No proofs here.
  * `Spec/*.v` - small independent specifications (what the English property says, without model helpers).
  * `Proofs/*.v` - lemmas.
  * `Props/Cnn_*.v` - the property theorems, non-vacuity `Example`s and `Print Assumptions`. A specification that is needed for
    one property only stands at the top of its `Props` file.
* `MANIFEST.json` - property -> theorem names and status (regenerated by `tools/sync.py` from the `Props` files).
* `seeded/edits/*.json`, `seeded/LOG.jsonl`, `tools/mutate.py` - wrong-program experiments: `mutate.py` copies the development
  outside `/verif`, replaces one piece of one model definition, rebuilds the property's theorems and logs what failed.

## Conventions of the model

* Scalars live in an arbitrary mathcomp `fieldType` `F` (the C++ is templated over the field). Concrete examples use `'F_p`.
* `std::vector` is `seq`; indices are `nat`. Out-of-range access is never silently given a meaning in a property: either the
  model function returns `option` (`None` = undefined behaviour, failed assertion or exception), or the theorem has an explicit
  in-range hypothesis, or the theorem proves the index in range. "The function returns `Some ..`" is part of the conclusions.
* `while` loops and general recursions carry a fuel argument and are `None` when it runs out; theorems prove that it does not.
* Machine integers are `nat` (no wrap-around) unless a comment says otherwise. Where wrap-around matters it is modelled and is a
  listed finding.
* `std::log2`/`std::ceil` on numbers of packets, rows and domain sizes are taken to be exact.
* Groups of a pairing-friendly curve (G1, G2, GT) are arbitrary modules over the scalar field (mathcomp `lmodType F`), written
  additively (GT too), with an arbitrary bilinear pairing (`Spec/GroupSpec.v`); non-degeneracy is a hypothesis where it is used.
  Statements are algebraic (completeness, exactness, uniqueness), never about hardness.
* Hash functions, transcripts and random generators are arbitrary functions (universally quantified), so that a theorem holds for
  every hash and every transcript. Binding statements say "or here is a collision".
* Polynomials: `{poly F}` in the PLONK and commitment layers (a `polynomial_dfs` is the polynomial it denotes), coefficient or
  evaluation vectors `seq F` where the code works on them directly (quotient splitting, FRI folding, domains).
* Soundness over a random challenge is stated without probability: if acceptance is possible for `N` different challenges, then the
  claim holds (equivalently: for a false claim fewer than `N` challenges are accepted, with `N` explicit). Everything that the code
  draws or receives before the challenge is fixed before the list of challenges in the statement.

## Trusted base

* Coq 8.16.1's kernel (and `coqchk`), and the definitions of mathcomp 1.x that occur in statements.
* `Print Assumptions` stands after every property theorem; for each of them it prints `Closed under the global context`. No axiom
  of the standard library is used, and none is added. (`coqchk` on the whole library context additionally lists the sealed modules
  of mathcomp, for instance the definition of `finfun` and of bigops; no theorem here depends on an unproved statement of them.)
* The reading of the C++ as Gallina: every definition cites what it models; simplifications are stated in its comment.
* Assumptions about code outside `/repo`, made by modelling it by its documented meaning:
  * crypto3-math: evaluation domains are lists of distinct points, FFTs are exact, polynomial arithmetic is exact
    (`Model/Domain.v`, `Model/PolysEvaluator.v`).
  * crypto3-containers: Merkle trees are complete binary hash trees, and `validate(leaf)` recomputes the root from the leaf and the
    path stored in the proof (`Model/MerkleTree.v`, `Model/Fri.v`); `snark/merkle_tree.hpp`, included by `set_commitment.hpp`,
    is missing from the repository.
  * crypto3-algebra: curve groups and pairings as above; `multiexp` is the sum of products.
  * crypto3-marshalling, crypto3-hash: arbitrary functions.

## What is modelled

Paths are relative to `include/nil/crypto3/zk/`.

| Model file | Code |
|---|---|
| LinearCombination, ConstraintSystems | `math/linear_combination.hpp`, `math/linear_variable.hpp`, `snark/arithmetization/constraint_satisfaction_problems/{r1cs,uscs}.hpp` |
| Circuits | `circuit_satisfaction_problems/{bacs,tbcs}.hpp`, `snark/reductions/{bacs_to_r1cs,tbcs_to_uscs}.hpp` |
| ArithmeticPrograms | `arithmetic_programs/{qap,sap,ssp}.hpp`, `snark/reductions/{r1cs_to_qap,r1cs_to_sap,uscs_to_ssp}.hpp` |
| Groth16 | `systems/ppzksnark/r1cs_gg_ppzksnark/{generator,prover,verifier,...}.hpp`, basic mode |
| IntegerPermutation, Benes, AsWaksman | `math/integer_permutation.hpp`, `snark/routing/{benes,as_waksman}.hpp` |
| Expression, PlonkVariable, HashMap | `math/{expression,expression_evaluator,expression_visitors,non_linear_combination}.hpp`, `plonk/variable.hpp` |
| PlonkTable | `plonk/{table_description,assignment,padding}.hpp` |
| CycleRepresentation | `plonk/copy_constraint.hpp`, `cycle_representation` of `placeholder/preprocessor.hpp` |
| PermutationArgument, GatesArgument, LookupArgument | the arguments of `systems/plonk/placeholder/`, prover and verifier side |
| LookupPacking | `plonk/lookup_table_definition.hpp` |
| Quotient, Placeholder, PlaceholderKzg | `placeholder/{preprocessor,prover,verifier,proof}.hpp`, and the two KZG schemes as its commitment scheme |
| FoldPolynomial, Fri | `commitments/detail/polynomial/{fold_polynomial,basic_fri}.hpp` |
| PolysEvaluator, Lpc, Kzg | `commitments/batched_commitment.hpp`, `commitments/polynomial/{lpc,kzg,kzg_v2}.hpp` |
| Pedersen, KnowledgeCommitment | `commitments/polynomial/{pedersen,knowledge_commitment,knowledge_commitment_multiexp}.hpp` |
| ProofOfWork, Transcript | `detail/polynomial/proof_of_work.hpp`, `transcript/fiat_shamir.hpp` (sequential; the Poseidon integer challenge) |
| PowersOfTau, Groth16Mpc | `commitments/polynomial/{powers_of_tau,proof_of_knowledge,r1cs_gg_ppzksnark_mpc}.hpp` and details |
| SetCommitment, MerkleTree | `snark/set_commitment.hpp` |
| Pghr, UscsPpzksnark, SePpzksnark, CircuitPpzksnark | `systems/ppzksnark/{r1cs_ppzksnark,uscs_ppzksnark,r1cs_se_ppzksnark,bacs_ppzksnark,tbcs_ppzksnark}/{generator,prover,verifier,...}.hpp` |
| Aggregate | `systems/ppzksnark/r1cs_gg_ppzksnark/ipp2/{srs,transcript,prover,verifier,proof,verification_key}.hpp`, `commitments/polynomial/kzg_ipp2.hpp` |
| EncryptedInput.v | r1cs_gg_ppzksnark/encrypted_input/{generator,prover,verifier}.hpp |
| KimchiPedersen.v | commitments/polynomial/kimchi_pedersen.hpp |
| KimchiTranscript.v | `transcript/kimchi_transcript.hpp` (`DefaultFqSponge`), `pickles/detail/mapping.hpp` (`ScalarChallenge::to_field`), `pickles/alphas.hpp` (`Alphas`) |
| PicklesExpr.v | pickles/expr.hpp, permutation.hpp, constraints.hpp, `combine` of proof.hpp, oracles.hpp (`prev_chal_evals`, public evaluations, permutation part of `ft_eval0`) |
| PicklesVerifier.v | pickles/verifier.hpp (`to_batch`: scalars and commitments of `f_comm`), oracles.hpp (`ft_eval0`) |

## Plan per property

| Id | What is modelled | How it is proved |
|----|------------------|------------------|
| C01 | `linear_combination` ctor (sort+merge), `+ - *`, `evaluate`, `is_valid` | induction over term lists |
| C02 | R1CS/USCS `is_satisfied`, `swap_AB_if_beneficial` | unfolding to the spec, commutativity |
| C03 | BACS evaluation, `bacs_to_r1cs` | induction over gates |
| C04 | TBCS evaluation, `tbcs_to_uscs` | per-gate algebra + induction over gates |
| C05-C07 | QAP/SAP/SSP reductions on a domain given by its points | Lagrange interpolation, divisibility by the vanishing polynomial, root counting |
| C08-C10 | Groth16 generator/prover/verifier over modules with a pairing | bilinearity on top of C05; explicit bijection of randomness |
| C11 | `integer_permutation` | list permutation lemmas |
| C12 | Benes networks | recursion on sub-networks, cycle-following invariant |
| C13 | AS-Waksman networks | wiring invariant of the recursive topology; invariant of the routing loop (served packets, settings, partial permutations); recursion on sub-networks; walk of one packet |
| C14-C18 | expression trees, operators, evaluators, visitors | structural induction, cache invariant |
| C19-C20 | table description, assignment table, padding | arithmetic |
| C21 | `cycle_representation` | merge-of-cycles invariant, permutation = orbits |
| C22-C24 | permutation argument | grand product telescoping; bivariate root counting; bisimulation of prover and verifier |
| C25-C28 | lookup argument | multiset of adjacent pairs; telescoping; greedy packing invariant |
| C29-C33 | gates argument, quotient, verifier identity | polynomial algebra; composition of C22-C30 over any commitment scheme that opens the state |
| C34 | public input check | evaluation algebra |
| C35 | lookup table packing | list arithmetic |
| C36-C37 | FRI folding, leaf layout | even/odd decomposition; coset index arithmetic |
| C38 | FRI prover and verifier | round induction over the step list |
| C39 | FRI degree check | degree of the final polynomial, folding backwards; explicit counterexamples |
| C40 | LPC | recombination of the combined quotient; partial fractions; root counting in theta; explicit forgery |
| C41-C42 | KZG, batched KZG v1/v2 | factor theorem, Lagrange remainder |
| C43 | Pedersen VSS | Lagrange at zero |
| C44 | grinding | loop invariant |
| C45-C46 | powers of tau, MPC phase 2 | induction on contributions; linear forms vanish on few random vectors |
| C47 | knowledge commitment vectors | chunk partition invariant |
| C48 | set commitment over a Merkle tree with arbitrary hash | induction on tree depth and history |
| C49 | what accepted FRI queries say about the committed vectors | Merkle binding "or collision", round induction with an independent folding specification |
| C50 | the R1CS ppzkSNARK over modules with a pairing | closed form of keys and proof on top of C05 and C47, bilinearity; non-zero input polynomials have few roots; exponents of the key elements by trapdoor monomials, comparison of coefficients |
| C51 | the USCS ppzkSNARK over modules with a pairing | closed form of keys and proof on top of C07; keys as lists of polynomials in the evaluation point, root counting in alpha and t |
| C52 | the Groth-Maller R1CS ppzkSNARK over modules with a pairing | closed form of keys and proof on top of C06; exponents as linear forms in alpha, s, gamma; root counting in gamma, beta and t |
| C54 | Groth16 keys as linear forms in the trapdoor | exponents of all key elements as Laurent forms in alpha, beta, delta; comparison of coefficients; C05_sound |
| C53 | the circuit ppzkSNARKs as compositions of reductions and constraint-system ppzkSNARKs | C03 with C50, C04 with C51 |
| C55 | aggregation of Groth16 proofs over abstract groups, the transcript as an arbitrary function | folding of inner products by induction on the rounds; KZG quotients; Vandermonde on the challenges |
| C56 | the committed vectors of C49, functions of the earlier challenges for a strategy | correlated agreement of the even and odd parts within a third of the free degree (interpolation from three challenges, pigeonhole); induction on the foldings; counting over the tree of challenges |
| C57 | prover and verifier of the encrypted input mode; the encryption as a specification | bilinear algebra reducing to the Groth16 equation of C10; C08 for completeness |
| C58 | the verifier of C40 on the committed vectors of C56 | the combined quotient as a curve in theta; correlated agreement on curves (the lemma of C56); division by X - point; C56 for the combined vector |
| C59 | poly_comm operations, commitment, proof_eval, verify_eval; the sponge as arbitrary functions | loop invariants for the coefficients of the challenge polynomial; multiexponentiation as a sum; induction over rounds; Vandermonde for the separation |
| C60 | the equations of verify_eval (C59), proof_eval for padded bases | the openings are a linear space; induction over the tree of runs with explicit interpolation weights; the malicious prover runs the rounds on a vector with a coefficient at a padded base |
| C61 | DefaultFqSponge, ScalarChallenge::to_field, Alphas | induction over the operations with the invariant that the buffer is empty; injectivity of the decoding by induction on the pairs of bits (the parity tells the pair); invariant of the registrations |
| C62 | PolishToken::evaluate, perm_scalars, gnrc_scalars, combine, prev_chal_evals, parts of oracles | induction over expressions with the invariant that the cache holds the values of the stored names; simulation by counts; factorisation of X^n - 1; field identities |
| C63 | the linearization of to_batch, ft_eval0 | C61 (powers), C62 (permutation and generic scalars) and a field identity; explicit evaluations for the cancellation |

## Findings

Where the faithful model violates what a user would expect, the violation is a theorem (`.._refuted : exists ..`, or a universally
quantified attack), and the positive theorem carries the missing condition as a hypothesis.

* `C01_is_valid_empty_refuted`: [is_valid] inspects [*--terms.end()] of an empty vector: undefined behaviour on the zero
  combination.
* `C02_is_valid_last_variable_refuted`: [r1cs_constraint_system::is_valid] compares indices with [num_variables()] although
  index 0 is the constant, so a well-formed system that uses its last variable is reported invalid.
* `C04_last_wire_boolean_refuted`: The booleanity loop runs over variables 0..n-1 and so skips the last wire; the produced
  system has satisfying assignments whose last wire is not a bit.
* `C04_sound_small_field_refuted`: Over F_7 (and F_5) this gap makes the reduction unsound: NAND(0,0) = 1 is an unsatisfied
  output, yet the USCS has a satisfying assignment. (Cryptographic fields have large characteristic.)
* `C04_wire_depths_refuted`: [wire_depths] indexes [depths] by wire number although the constant wire has no entry.
* `C12_validate_collision_refuted`: Without that agreement it is not. Two packets sent to the same row overwrite each other and
  the gap is filled by the value-initialised 0, which is the name of packet 0: here packet 0 is sent to row 1, and the routing
  is accepted as a routing of the identity.
* `C13_one_packet_refuted`: A single packet: [get_as_waksman_routing] computes the number of columns, 0, minus 1; the unsigned
  number wraps around and the algorithm runs into out-of-range accesses. ([generate_as_waksman_topology] has an assertion
  against this case.)
* `C13_validate_collision_refuted`: A routing with settings in other rows can be accepted although it loses a packet: here rows
  0 and 2 of the middle column have a setting, the two packets of the switch of rows 1 and 2 take different settings, and both
  end up in row 2.
* `C15_cache_emptied_refuted`: Cached entries are not released A use count is only decremented on a cache hit, and the first
  visit is not a hit, so after one call the entry of a repeated subexpression is still cached; a second call of [evaluate] after
  the variables' values have changed returns the old value.
* `C16_wrap_refuted`: The computation wraps modulo 2^32 (x^65536)^65536 has degree 2^32; the visitor answers 0.
* `C17_power_zero_refuted`: Power zero is converted to the base itself (the loop starts from the base), so [x^0] becomes [x].
* `C20_wrap_refuted`: A table of exactly 2^31 rows is padded to 8 rows, losing its data (the doubling wraps around in
  [uint32_t]).
* `C23_two_parts_forgeable`: The challenges that combine the parts are drawn before the intermediate products are committed to,
  so that these can be chosen afterwards. With two permuted columns in two parts, the constant grand product 1 and a suitable
  intermediate product then pass on every row, for every table, every copy constraints and every challenges but the few for
  which a denominator vanishes.
* `C23_parts_order_refuted`: Hence, with two parts, a table that violates a copy constraint passes: for every [beta] and [gamma]
  (but one line of them) and for every [alpha] but one.
* `C25_separated_runs_refuted`: When a non-zero value occurs in two separated runs (which the comments of the code exclude, but
  nothing checks), the sorted columns hold it too often: they are not the merged multiset.
* `C25_overflow_refuted`: The same layout with a full table makes [sort_polynomials] write past the last column.
* `C25_first_row_refuted`: When a table column does not start with zero, the adjacent pairs differ.
* `C28_empty_part_refuted`: The preprocessor accepts every limit above the degrees of the constraints (and a limit of zero), but
  an item costs one more than the degree, an option costs three. If the first item reaches the limit, an empty first part is
  emitted.
* `C28_prover_stops`: In both cases the prover stops (undefined behaviour or a failed assertion) when it builds the lookup
  parts.
* `C28_oversized_refuted`: A later item that costs at least the limit is put in a part of its own that exceeds it.
* `C28_no_gates_refuted`: Tables without lookup gates: the parts count the options, the sorted columns do not.
* `C29_negative_rotation_refuted`: On tables whose number of rows is not a power of two, a rotation below minus the number of
  rows reads a wrong row ([constraint.hpp:93] adds the rotation to an unsigned number before reducing): row 0 with rotation -4
  of a table with 3 rows is row 2, the code reads row 0.
* `C30_max_quotient_chunks_refuted`: A [max_quotient_chunks] that is too small makes the prover write past the end of the
  vector.
* `C31_missing_selector_refuted`: The condition [within] is needed The verifier does not check that the selector of a gate
  exists. If it does not, its value is the default zero, and the gate contributes nothing, whatever values are claimed.
* `C34_nothing_supplied`: Only the supplied columns are compared.
* `C34_negative_rotation_refuted`: With a negative rotation on a public input column the verifier rejects the true public
  inputs.
* `C35_shared_selector_refuted`: Horizontal packing gives two subtables of different tables with the same range one selector;
  rows of the wrong table are then accepted.
* `C35_big_table_refuted`: Horizontal packing of a table with more rows than max_usable_rows loses rows of the table.
* `C35_exact_rows_refuted`: A table with exactly max_usable_rows rows is packed wrongly.
* `C38_zero_challenge_refuted`: In particular a query challenge equal to zero stops the honest prover.
* `C38_too_many_rounds_refuted`: The step list may have more rounds than the degree bound allows: check_step_list accepts it,
  but then no proof is ever accepted.
* `C39_twice_refuted`: The bound is twice too loose: FRI accepts every polynomial with up to 2 * (max_degree + 1) coefficients.
* `C39_vacuous_refuted`: When the domain is only twice as large as the degree bound (expand_factor = 1), acceptance says
  nothing: whatever values are claimed there is a combined polynomial for which the prover's proof is accepted.
* `C39_late_final_refuted`: The final polynomial is not part of the transcript: the prover can choose it after the queries are
  known. When there are not more queries than coefficients allowed in it, whatever values are claimed and whatever the
  challenges are, there is an accepted proof (unless a query challenge is zero, which stops the verifier). [pw] is an accepted
  proof of work for the transcript [tr1] after the rounds.
* `C40_forged_refuted`: The claimed values are not put into the transcript before theta is drawn. So whoever knows theta can
  change the values of two polynomials at a common point: for every accepted proof and every value [w] there is an accepted
  proof with the value [w].
* `C40_unchecked_refuted`: A value that is not the first one for its point, because the point occurs twice or because there are
  more values than points, is not checked at all.
* `C42_v2_empty_batch_refuted`: Committing a batch without polynomials is accepted by the prover of version 2, but the verifier
  divides by zero.
* `C44_poseidon_half`: The Poseidon integer challenge of 32 bits has only 16 of them.
* `C44_poseidon_mask_refuted`: ... so that a mask on the 16 high bits accepts every nonce.
* `C45_pok_rerandomised`: The points of a proof of knowledge are not part of what is hashed (proof_of_knowledge.hpp:89-96), so
  anyone can re-randomise an accepted proof without knowing the secret.
* `C45_pok_replayed`: Only the first byte of the hash seeds the generator, so a proof accepted for one transcript is accepted
  for every transcript whose hash starts with the same byte.
* `C45_zero_contribution`: A contribution with tau = 0 is accepted, and every later accumulator has lost all earlier
  contributions.
* `C45_zero_beta_refuted`: After a zero beta the beta of G2 is not checked any more.
* `C46_no_contribution`: The key pair that nobody has contributed to, whose delta is 1, verifies with an empty list of public
  keys: the caller has to look at the list.
* `C48_max_entries_refuted`: The number of entries is not limited by [max_entries] but by the next power of two.
* `C49_position_refuted`: A proof with any number of queries is accepted, whatever the transcript, as long as the verifier can
  evaluate the queries at all (see C38), although the committed vector is not a polynomial with at most twice the number of
  coefficients that the parameters ask for, and is inconsistent with the final polynomial at the points of the other leaf.
* `C51_unused_input_refuted`: A public input without coefficient makes the assertion of the uscs_ppzksnark generator fail for
  every evaluation point.
* `C52_excess_input_refuted`: The weak-input-consistency verifier of r1cs_se_ppzksnark has no length check: a proof is accepted
  for every longer primary input that extends the proved one. (The other schemes assert the length.)
* `C53_tbcs_generates_refuted`: For a TBCS circuit whose wires are all primary inputs the generator of tbcs_ppzksnark fails
  its assertion for every choice of trapdoor, because the booleanity constraints skip the last wire (C04).
* `C55_count_refuted`: verify_aggregate_proof does not compare the number of aggregated proofs with the number of inputs
  (an aggregate of two proofs is accepted for one input).
* `C55_defined_refuted`: proof.hpp has an `is_valid` that compares the lengths of the vectors of an aggregated proof, but
  the verifier never calls it (and it needs a constant that is not defined): vectors of different lengths or without
  entries make verification undefined instead of rejected.
* `C57_number_refuted`: the encrypted input verifier asserts `input_size - 1 > ct_size - 2`: when all inputs or all but one are
  encrypted, every verification aborts where assertions are compiled in.
* `C59_bound_refuted`: with a degree bound above the number of coefficients the prover shifts the last segment to the end of the bases,
  the commitment and the verifier shift it by the bound: honest proofs are rejected.
* `C59_forged`: the Kimchi verifier gives both equations of the first batch the weight 1, and the point `sg` is not absorbed before the
  last challenge: with z1 = z2 = 0 the point `sg` can be chosen so that any commitments with any claimed values are accepted.
* `C59_sub_refuted`: `poly_comm::operator-` keeps the sign of the tail of a longer subtrahend, and of its shifted part when the own one is 0.
* `C59_multi_scalar_refuted`: `multi_scalar_mul` drops the segments beyond the smallest number of segments.
* `C60_padding_forged`: `proof_eval` and `verify_eval` pad the bases with 0 to a power of two, but `b` (and `b_poly`) covers the padded
  indices: if the number of bases is not a power of two, any commitment to one block can be opened to any value at any point but 0.
* `C61_stale`: `absorb_fr` of a scalar clears the limb buffer only if it is empty (inverted test): a single limb drawn after it does not
  depend on the scalar. Challenges of two limbs (the only ones the protocol draws) are not affected (`C61_transcript`).
* `C62_combine_refuted`: `combine` assigns to `lookup_combined.sorted[i]` although the vector is empty (undefined behaviour for every proof
  with lookups). `C62_public_refuted`: `oracles` calls `p_eval[0].push_back` on an empty vector for every non-empty public input.
  `C62_missing_column`: a cell of a column without evaluation (a coefficient, another selector) silently counts as 0.
* `C63_shared_alpha_refuted`: `to_batch` passes the powers of alpha of the permutation to `gnrc_scalars` instead of those of the gates: a violated
  permutation constraint and a violated generic constraint cancel for every alpha.
* `C63_lookup_dropped_refuted`: the tests `if (index.lookup_index_is_used)` in `to_batch` are inverted: the terms of the lookup selectors and of the
  lookup table are dropped when lookups are used.

## Not modelled (and why)

* Zero knowledge and soundness as computational statements (hardness assumptions are not expressible as theorems about the code).
  Placeholder's soundness is stated against provers whose openings are values of fixed polynomials (C33_sound), FRI's as
  consistency of every accepted query (C49); proximity of the committed vectors to polynomials is C56 (FRI) and C58 (LPC), in the regime 3E + degree bound <= domain size
  (the larger list-decoding radii are not proved).
  The pairing-based arguments are proved knowledge sound against linear (algebraic) strategies, whose outputs are fixed linear
  combinations of the key elements (C50_extracts, C51_extracts, C52_extracts,
  C53_bacs_extracts, C53_tbcs_extracts, C54_extracts).
* Marshalling of proofs to bytes and back, elliptic-curve arithmetic, FFT implementations, hash functions: outside this repository;
  they appear as arbitrary functions or exact mathematical operations.
* Seeded random generators (`rng_from_beacon`, `generate_random_step_list`), floating point, benchmarks, `std::ostream` output.
* Memory management, exceptions other than the ones named, multi-threading other than the chunking in C47.
* Not read closely, hence not modelled: the kimchi and pickles parts (other than kimchi_pedersen.hpp,
  `DefaultFqSponge`, `ScalarChallenge`, `Alphas`, and the parts of pickles listed for PicklesExpr.v and PicklesVerifier.v), `plonk/kate`, ppzkadsnark, pcd.
