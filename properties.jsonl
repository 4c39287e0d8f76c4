{"id": "C01", "title": "CCS check decides the CCS equation", "statement": "CCS::check_relation(z) returns Ok exactly when, for every row index r < m, the sum over i < q of c_i times the product over j in S_i of (M_j z)[r] is zero (rows a matrix does not have count as zero); when it returns NotSatisfied(i), i is the least violated row; it never reports a violated row of a satisfied system.", "quantifier": "all commutative rings, all CCS structures with consistent widths, all z vectors of the right length", "why_tests_cant": "tests check a handful of matrices; the equivalence and the 'least row' claim range over every structure and every z", "anchors": ["crates/latticefold/src/arith.rs: CCS::check_relation", "crates/latticefold/src/arith/utils.rs: mat_vec_mul, hadamard, vec_add, vec_scalar_mul"]}
{"id": "C02", "title": "R1CS to CCS conversion preserves satisfaction", "statement": "For an R1CS with equally many rows in A, B, C, CCS::from_r1cs(r1cs, W) with W at least the number of rows is satisfied by z exactly when the R1CS is; to_r1cs(from_r1cs(r)) returns r.", "quantifier": "all R1CS instances, all W >= rows, all z", "why_tests_cant": "equivalence of two satisfiability notions over every instance is not testable by enumeration", "anchors": ["crates/latticefold/src/arith.rs: CCS::from_r1cs, CCS::to_r1cs", "crates/latticefold/src/arith/r1cs.rs: R1CS::check_relation"]}
{"id": "C03", "title": "Conversion to CCS never drops constraints", "statement": "Any z accepted by the CCS produced by from_r1cs(r1cs, W) satisfies every row of the R1CS, whatever W the caller passes.", "quantifier": "all R1CS instances, all W, all z", "why_tests_cant": "a test only sees the W values it picks; the claim is about every W (and turns out false for W below the number of rows)", "anchors": ["crates/latticefold/src/arith.rs: CCS::from_r1cs, CCS::check_relation"]}
{"id": "C04", "title": "Row padding is sound and passes the size check", "statement": "CCS::from_r1cs_padded yields a CCS whose m is a power of two, at least W and at least (n-l-1)*L, whose s is log2 m, which the folding prover/verifier size check accepts, and which is satisfied by exactly the same z vectors as the unpadded CCS.", "quantifier": "all R1CS instances with n > l, all W and L for the sizes; all W >= rows for the equality with the unpadded CCS (smaller W: see C03)", "why_tests_cant": "power-of-two rounding and padding corner cases range over all sizes", "anchors": ["crates/latticefold/src/arith.rs: CCS::from_r1cs_padded, pad_rows_to", "crates/latticefold/src/nifs.rs: sanity_check"]}
{"id": "C05", "title": "R1CS and its relaxation agree", "statement": "R1CS::check_relation(z) and R1CS::relax().check_relation(z) return the same result for every z.", "quantifier": "all R1CS instances with A, B, C of equally many rows, all z", "why_tests_cant": "agreement on all instances/vectors", "anchors": ["crates/latticefold/src/arith/r1cs.rs: R1CS::check_relation, R1CS::relax, RelaxedR1CS::check_relation"]}
{"id": "C06", "title": "Constraint-system builder agrees with the R1CS it emits", "statement": "For a valid ConstraintSystem and inputs of the declared lengths, is_satisfied(primary, aux) returns Ok / NotSatisfied(i) exactly as to_r1cs().check_relation(primary ++ aux) does; swap_AB_if_beneficial changes neither answer.", "quantifier": "all valid constraint systems, all assignments of the declared lengths", "why_tests_cant": "the claim relates two evaluators on all systems", "anchors": ["crates/latticefold/src/arith/r1cs.rs: ConstraintSystem::is_satisfied, to_r1cs, swap_AB_if_beneficial, LinearCombination::evaluate"]}
{"id": "C07", "title": "CCS parameter encoding is injective", "statement": "Two CCS structures whose size parameters fit in 64 bits have equal params_to_le_bytes exactly when l, m, n, t, q and d are all equal.", "quantifier": "all pairs of 64-bit parameter tuples", "why_tests_cant": "injectivity over 2^384 tuples", "anchors": ["crates/latticefold/src/arith.rs: params_to_le_bytes"]}
{"id": "C08", "title": "Constraint vector layout", "statement": "get_z_vector of a CCCS is statement, then one, then witness; linearizing a CCCS yields an LCCCS whose get_z_vector gives the same vector, so the same matrices see the same z before and after linearization.", "quantifier": "all statements and witnesses", "why_tests_cant": "holds for all lengths and contents", "anchors": ["crates/latticefold/src/arith.rs: Instance for CCCS, Instance for LCCCS", "crates/latticefold/src/nifs/linearization.rs: prove, prepare_verifier_output"]}
{"id": "C09", "title": "eq polynomial tabulation", "statement": "build_eq_x_r_vec(r) has 2^n entries and its entry b equals eq_eval(bits of b, r) for every b; eq_eval is symmetric, is 1/0 on equal/different boolean points, and fails exactly on length mismatch; build fails exactly on the empty point.", "quantifier": "all rings, all points of all lengths", "why_tests_cant": "all points and all 2^n indices", "anchors": ["crates/latticefold/src/utils/sumcheck/utils.rs: eq_eval, build_eq_x_r_vec, build_eq_x_r_helper, bit_decompose"]}
{"id": "C10", "title": "Multilinear evaluation is the eq-weighted sum", "statement": "Evaluating a table of at most 2^n ring elements at a point of n coordinates returns the sum over all boolean b of table[b]*eq(b, point) (missing entries zero); at a boolean point it returns the table entry; it is linear in the table; a table longer than 2^n or a mismatched point is never silently evaluated.", "quantifier": "all tables, all points", "why_tests_cant": "all tables, sizes and points", "anchors": ["crates/latticefold/src/utils/mle_helpers.rs: Evaluate, evaluate_mles, to_mles_err, calculate_Mz_mles"]}
{"id": "C11", "title": "Sumcheck completeness", "statement": "For every list of multilinear tables, every combination function that is a polynomial of total degree at most `degree`, and every transcript, the proof produced by prove_as_subprotocol is accepted by verify_as_subprotocol with claimed sum equal to the sum of the combination over the boolean cube; the subclaim point is the prover's randomness, the expected evaluation is the combination of the tables' evaluations at that point, and prover and verifier transcripts end in the same state.", "quantifier": "all tables, all nvars >= 1, all degrees, all polynomial combination functions, all transcripts", "why_tests_cant": "quantifies over every polynomial and every Fiat-Shamir challenge sequence", "anchors": ["crates/latticefold/src/utils/sumcheck.rs: MLSumcheck::prove_as_subprotocol, verify_as_subprotocol", "crates/latticefold/src/utils/sumcheck/prover.rs: prove_round", "crates/latticefold/src/utils/sumcheck/verifier.rs: check_and_generate_subclaim"]}
{"id": "C12", "title": "Sumcheck soundness", "statement": "If verify_as_subprotocol accepts a claimed sum that differs from the true sum and the subclaim nevertheless is true of the polynomial, then in some round the sampled challenge is a root of a nonzero polynomial of degree at most `degree` that was fixed before the challenge; each such polynomial has at most `degree` roots among the challenges.", "quantifier": "all proofs (honest or not), all polynomials of the stated degree, all transcripts", "why_tests_cant": "the adversary's proof is arbitrary", "anchors": ["crates/latticefold/src/utils/sumcheck.rs: verify_as_subprotocol", "crates/latticefold/src/utils/sumcheck/verifier.rs"]}
{"id": "C13", "title": "Sumcheck round message is independent of the parallel schedule", "statement": "For every way rayon may split the index range into chunks and every reduction tree, the parallel round prover returns exactly the message of the sequential build.", "quantifier": "all splittings of the range, all reduction trees, all tables and combination functions", "why_tests_cant": "tests observe a few schedules only", "anchors": ["crates/latticefold/src/utils/sumcheck/prover.rs: prove_round (fold/reduce)"]}
{"id": "C14", "title": "Univariate interpolation is exact in every branch", "statement": "interpolate_uni_poly(evals, x) equals the value at x of the unique polynomial of degree < len through (i, evals[i]), in each of its three code paths (len <= 20 machine 64-bit, len <= 33 128-bit, larger in the field), for every x including 0..len-1, and no machine-integer operation on the path overflows.", "quantifier": "all lengths (at most the field characteristic), all evaluation lists, all x", "why_tests_cant": "all lengths/points; overflow freedom for all branch lengths", "anchors": ["crates/latticefold/src/utils/sumcheck/verifier.rs: interpolate_uni_poly, u64_factorial, u128_factorial, field_factorial"]}
{"id": "C15", "title": "Sumcheck verifier never crashes on a malformed proof", "statement": "For every proof value, verify_as_subprotocol returns Ok or Err; it does not panic.", "quantifier": "all proof values", "why_tests_cant": "requires all malformed proofs; turns out false (short proofs and wrong-arity messages abort)", "anchors": ["crates/latticefold/src/utils/sumcheck.rs: verify_as_subprotocol", "crates/latticefold/src/utils/sumcheck/verifier.rs: check_and_generate_subclaim"]}
{"id": "C16", "title": "Sumcheck proofs are not padded silently", "statement": "Two different proofs are never accepted for the same claim with the same verifier outcome merely because one carries extra round messages.", "quantifier": "all proofs", "why_tests_cant": "universally quantified over proofs; false: trailing messages are ignored", "anchors": ["crates/latticefold/src/utils/sumcheck.rs: verify_as_subprotocol"]}
{"id": "C17", "title": "Ajtai commitment is linear and length-checked", "statement": "commit succeeds exactly when the witness length equals the number of columns, otherwise it returns WrongWitnessLength with both lengths; commit(a*f + b*g) = a*commit(f) + b*commit(g) for all ring scalars.", "quantifier": "all matrices, all witnesses, all scalars", "why_tests_cant": "linearity over all vectors and scalars", "anchors": ["crates/latticefold/src/commitment/commitment_scheme.rs: AjtaiCommitmentScheme::commit", "crates/latticefold/src/commitment/homomorphic_commitment.rs: Commitment ops"]}
{"id": "C18", "title": "Random Ajtai scheme separates distinct short witnesses", "statement": "The scheme returned by AjtaiCommitmentScheme::rand maps at least two distinct witnesses of small norm to distinct commitments for some sampled randomness whenever they have the same coordinate sum, i.e. the matrix has independent columns available.", "quantifier": "all random tapes, all dimensions n >= 2", "why_tests_cant": "depends on what every random tape produces; false: one element is cloned into every entry", "anchors": ["crates/latticefold/src/commitment/commitment_scheme.rs: AjtaiCommitmentScheme::rand"]}
{"id": "C19", "title": "Commitment arithmetic forms a module", "statement": "For commitments of equal length, + is commutative and associative with zeroed as unit, - inverts +, and * by ring elements distributes; result length is the operands' length.", "quantifier": "all commitments of equal length, all scalars", "why_tests_cant": "algebraic laws over all values", "anchors": ["crates/latticefold/src/commitment/homomorphic_commitment.rs: AddAssign, SubAssign, MulAssign"]}
{"id": "C20", "title": "Balanced digit decomposition is exact and short", "statement": "Decomposing a coefficient into k digits in base b yields digits of absolute value at most b/2 and, whenever the centred value is within the range of k balanced digits, recomposes to the value; consequently Witness::from_w_ccs recomposes to the given witness when B^L covers the modulus.", "quantifier": "all bases >= 2, all digit counts, all coefficients", "why_tests_cant": "all coefficients of a 64..256-bit field", "anchors": ["crates/latticefold/src/arith.rs: Witness::from_w_ccs", "crates/latticefold/src/nifs/decomposition/utils.rs: decompose_B_vec_into_k_vec, decompose_big_vec_into_k_vec_and_compose_back", "crates/latticefold-plus/src/decomp.rs"]}
{"id": "C21", "title": "Witness constructors are mutually consistent", "statement": "from_w_ccs, from_f and from_f_coeff produce witnesses whose f is the NTT image of f_coeff, whose f_hat rows are the coefficient chunks of f_coeff embedded in the NTT slots, and whose w_ccs is the base-B recomposition of f; from_f(from_w_ccs(w).f) = from_w_ccs(w) when B^L covers the modulus.", "quantifier": "all witness vectors, all suitable rings", "why_tests_cant": "all vectors and ring parameters", "anchors": ["crates/latticefold/src/arith.rs: Witness::from_w_ccs, from_f, from_f_coeff, get_fhat"]}
{"id": "C22", "title": "Decomposition completeness", "statement": "If an LCCCS is opened by a witness (commitment, v, u, x, h all correct, digits within range) then the decomposition prover succeeds, the decomposition verifier accepts its proof, both return the same K instances and leave transcripts in the same state, and each returned instance is opened by the corresponding returned witness with coefficients of absolute value at most b/2.", "quantifier": "all LCCCS/witness pairs satisfying the relation, all transcripts, all parameters with b^K covering the witness norm", "why_tests_cant": "all witnesses and transcripts", "anchors": ["crates/latticefold/src/nifs/decomposition.rs: LFDecompositionProver::prove, LFDecompositionVerifier::verify"]}
{"id": "C23", "title": "Decomposition verifier soundness for K-element proofs", "statement": "If the decomposition verifier accepts a proof with exactly K components of the expected inner lengths, then whenever each returned instance is opened by a witness, the b-weighted sum of these witnesses opens the input instance.", "quantifier": "all proofs of the stated shape, all witnesses", "why_tests_cant": "adversarial proofs", "anchors": ["crates/latticefold/src/nifs/decomposition.rs: LFDecompositionVerifier::verify, recompose, recompose_commitment"]}
{"id": "C24", "title": "Every instance returned by the decomposition verifier is constrained", "statement": "The decomposition verifier returns exactly K instances on acceptance, all of which take part in the recomposition checks.", "quantifier": "all proofs", "why_tests_cant": "adversarial proofs of any shape; false: components beyond K are returned but never checked", "anchors": ["crates/latticefold/src/nifs/decomposition.rs: LFDecompositionVerifier::verify"]}
{"id": "C25", "title": "Linearization completeness", "statement": "For a CCS obtained from an R1CS (or any CCS whose multisets enumerate the matrices in order) and a satisfying witness, the linearization prover succeeds and the verifier accepts, both return the same LCCCS and transcript state, and that LCCCS is opened by the witness: v are the f-hat evaluations and u the M_j z evaluations at r.", "quantifier": "all satisfied instances, all transcripts", "why_tests_cant": "all instances and challenge sequences", "anchors": ["crates/latticefold/src/nifs/linearization.rs: LFLinearizationProver::prove, LFLinearizationVerifier::verify", "crates/latticefold/src/nifs/linearization/utils.rs: prepare_lin_sumcheck_polynomial, sumcheck_polynomial_comb_fn"]}
{"id": "C26", "title": "Linearization completeness for arbitrary CCS", "statement": "For every CCS and satisfying witness accepted by the prover, the linearization verifier accepts the proof.", "quantifier": "all CCS structures, all satisfying witnesses", "why_tests_cant": "tests only use R1CS-shaped multisets; false when a matrix is reused, permuted, or a zero coefficient precedes a used multiset", "anchors": ["crates/latticefold/src/nifs/linearization/utils.rs: prepare_lin_sumcheck_polynomial, sumcheck_polynomial_comb_fn", "crates/latticefold/src/nifs/linearization.rs: verify_evaluation_claim"]}
{"id": "C27", "title": "Linearization soundness", "statement": "If the linearization verifier accepts and the returned u are the true evaluations of M_j z for a z, then either z satisfies the CCS equation on all rows, or a beta or sumcheck challenge hit a root of a nonzero low-degree polynomial determined before it was drawn.", "quantifier": "all proofs, all z", "why_tests_cant": "adversarial proofs", "anchors": ["crates/latticefold/src/nifs/linearization.rs: LFLinearizationVerifier::verify"]}
{"id": "C28", "title": "Range polynomial decides digit range", "statement": "The product f*(f^2-1)*...*(f^2-(b-1)^2) computed by the folding combination function vanishes at a ring element exactly when each of its NTT slots is an integer of absolute value < b.", "quantifier": "all ring elements, all b at least 1 with 2b-1 at most the characteristic", "why_tests_cant": "all ring elements", "anchors": ["crates/latticefold/src/nifs/folding/utils.rs: sumcheck_polynomial_comb_fn, compute_sumcheck_claim_expected_value"]}
{"id": "C29", "title": "Folding verifier's final check equals the prover's combination function", "statement": "For all openings theta, eta and all challenges, compute_sumcheck_claim_expected_value equals the prover's combination function applied to the corresponding table evaluations, including the zero shortcuts.", "quantifier": "all values of all challenges and openings", "why_tests_cant": "algebraic identity over all values", "anchors": ["crates/latticefold/src/nifs/folding/utils.rs: sumcheck_polynomial_comb_fn, compute_sumcheck_claim_expected_value"]}
{"id": "C30", "title": "Folding completeness", "statement": "For 2K instances opened by witnesses with digits of absolute value < b (first K at one point, last K at another), the folding prover succeeds, the folding verifier accepts, and both produce the same folded LCCCS and the same transcript state.", "quantifier": "all opened instances, all transcripts", "why_tests_cant": "all witnesses and challenge sequences", "anchors": ["crates/latticefold/src/nifs/folding.rs: LFFoldingProver::prove, LFFoldingVerifier::verify"]}
{"id": "C31", "title": "Folded instance is opened by the folded witness", "statement": "The folded LCCCS output is opened by the folded witness: commitment, v, u, x and h are those of the challenge-weighted sum of the input witnesses, evaluated at the new point.", "quantifier": "all opened inputs, all transcripts", "why_tests_cant": "all witnesses and challenges", "anchors": ["crates/latticefold/src/nifs/folding.rs: prove, compute_f_0", "crates/latticefold/src/nifs/folding/utils.rs: compute_v0_u0_x0_cm_0"]}
{"id": "C32", "title": "Folded witness norm bound", "statement": "Each coefficient of the folded witness has absolute value at most sum over i of (d * |rho_i|_inf * |f_i|_inf), with the expansion factor computed from the ring's multiplication; with coefficients below b and challenges below c this is at most 2K*d*c*(b-1)*gamma.", "quantifier": "all witnesses and challenges", "why_tests_cant": "all witnesses; norm growth is a worst-case claim", "anchors": ["crates/latticefold/src/nifs/folding.rs: compute_f_0", "crates/latticefold/src/nifs/folding/utils.rs: get_rhos"]}
{"id": "C33", "title": "Rotation sum is ring multiplication on coefficient vectors", "statement": "rot_sum(a, b) has as its j-th output the linear form giving the j-th coefficient of a times the element whose coefficients are b; rot_lin_combination is the sum of these; both abort exactly when the length precondition fails.", "quantifier": "all ring elements and coefficient vectors", "why_tests_cant": "all inputs", "anchors": ["crates/cyclotomic-rings/src/rotation.rs: rot_sum, rot_lin_combination"]}
{"id": "C34", "title": "Folding scheme completeness and agreement", "statement": "For an accumulator opened by its witness and a satisfied committed CCS instance, NIFSProver::prove succeeds, NIFSVerifier::verify on the same inputs accepts and returns exactly the prover's accumulator, and that accumulator is opened by the returned witness.", "quantifier": "all accumulators, instances, witnesses, parameters satisfying the size conditions, all transcripts", "why_tests_cant": "all inputs and challenge sequences", "anchors": ["crates/latticefold/src/nifs.rs: NIFSProver::prove, NIFSVerifier::verify"]}
{"id": "C35", "title": "Incremental folding never diverges", "statement": "Starting from an opened accumulator and folding any sequence of satisfied instances, at every step the verifier's accumulator equals the prover's and is opened by the prover's witness.", "quantifier": "all finite sequences of instances, all transcripts", "why_tests_cant": "unbounded histories", "anchors": ["crates/latticefold/src/nifs.rs: NIFSProver::prove, NIFSVerifier::verify"]}
{"id": "C36", "title": "Folding verifier binds the incoming instance", "statement": "If NIFSVerifier::verify accepts an accumulator and an instance, the output accumulator can be opened only if the incoming instance's commitment contributed to it.", "quantifier": "all proofs, accumulators and instances", "why_tests_cant": "adversarial proofs; false: a proof with 2K components for the accumulator makes the verifier drop the instance", "anchors": ["crates/latticefold/src/nifs.rs: NIFSVerifier::verify", "crates/latticefold/src/nifs/folding.rs: LFFoldingVerifier::verify", "crates/latticefold/src/nifs/decomposition.rs: LFDecompositionVerifier::verify"]}
{"id": "C37", "title": "Public input absorption is injective", "statement": "Two different accumulator/instance pairs never leave the transcript in the same state by absorbing the same sequence of elements.", "quantifier": "all pairs of public inputs", "why_tests_cant": "all pairs; true for equal vector lengths, false across different splits", "anchors": ["crates/latticefold/src/nifs.rs: absorb_public_input"]}
{"id": "C38", "title": "Size check accepts exactly the admissible CCS sizes", "statement": "The size check of the folding scheme accepts exactly the CCS with m a power of two and (n-l-1)*L <= m; it has no other outcome when n > l.", "quantifier": "all m, n, l, L", "why_tests_cant": "all sizes", "anchors": ["crates/latticefold/src/nifs.rs: sanity_check", "crates/latticefold/src/nifs/decomposition.rs: sanity_check", "crates/latticefold/src/nifs/folding.rs: sanity_check"]}
{"id": "C39", "title": "Folding verifier never crashes", "statement": "For every CCS accepted by the size check and every proof, NIFSVerifier::verify returns Ok or Err.", "quantifier": "all proofs and CCS", "why_tests_cant": "adversarial proofs; false", "anchors": ["crates/latticefold/src/nifs.rs: NIFSVerifier::verify", "crates/latticefold/src/nifs/folding.rs", "crates/latticefold/src/nifs/linearization.rs: verify_evaluation_claim"]}
{"id": "C40", "title": "Honest runs keep prover and verifier transcripts synchronized", "statement": "The prover and the verifier perform the same sequence of absorb/squeeze operations on an honest proof, so any transcript implementation gives both the same challenges.", "quantifier": "all transcript implementations, all inputs", "why_tests_cant": "all transcripts", "anchors": ["crates/latticefold/src/transcript.rs: Transcript", "crates/latticefold/src/nifs.rs"]}
{"id": "C41", "title": "Short challenges stay in their documented range", "statement": "short_challenge_from_random_bytes returns an element all of whose coefficients lie in [-32,32) (Goldilocks, BabyBear), [-128,128) (Frog), [0,256) (Stark), fails with TooFewBytes exactly when the byte count differs from BYTES_NEEDED, and the map from byte strings to coefficient vectors is injective.", "quantifier": "all byte strings", "why_tests_cant": "2^144 / 2^128 inputs", "anchors": ["crates/cyclotomic-rings/src/rings/goldilocks.rs", "crates/cyclotomic-rings/src/rings/babybear.rs", "crates/cyclotomic-rings/src/rings/frog.rs", "crates/cyclotomic-rings/src/rings/stark.rs", "crates/cyclotomic-rings/src/challenge_set.rs"]}
{"id": "C42", "title": "Challenge set fills every coefficient of the ring", "statement": "short_challenge_from_random_bytes can reach every ring element whose coefficients are in the documented range.", "quantifier": "all ring elements with coefficients in range", "why_tests_cant": "surjectivity over the whole set; false for BabyBear (24 of 72 coefficients)", "anchors": ["crates/cyclotomic-rings/src/rings/babybear.rs", "crates/cyclotomic-rings/src/rings/goldilocks.rs"]}
{"id": "C43", "title": "Tensor expansion", "statement": "tensor(r) has 2^n entries and entry b is the product over i of r_i or 1-r_i according to the i-th most significant bit of b; tensor_product(a,b) has entry i*|b|+j equal to a_i*b_j when both are nonempty.", "quantifier": "all points and vectors", "why_tests_cant": "all lengths and values", "anchors": ["crates/latticefold-plus/src/utils.rs: tensor, tensor_product"]}
{"id": "C44", "title": "Set check accepts monomial sets", "statement": "For monomial matrices (at least two, or one and no vectors) and monomial vectors, the set-check prover's output is accepted by Out::verify on the same transcript, and the recorded evaluations are those of the tables at the sumcheck point.", "quantifier": "all lists of monomial matrices and vectors, all transcripts", "why_tests_cant": "all sets and challenges", "anchors": ["crates/latticefold-plus/src/setchk.rs: set_check, Out::verify, ev"]}
{"id": "C45", "title": "Set check accepts one matrix with vectors", "statement": "The same holds when there is exactly one matrix and at least one vector.", "quantifier": "all monomial matrix/vector pairs, all transcripts", "why_tests_cant": "tests cover only several matrices; false", "anchors": ["crates/latticefold-plus/src/setchk.rs: set_check (comb_fn), Out::verify"]}
{"id": "C46", "title": "Monomial test polynomial", "statement": "ev(x,beta)^2 = ev(x,beta^2) holds for zero and every monomial, so an honest set check sums to zero; for an element that is a sum of two or more distinct monomials with coefficient one there is a beta for which it fails unless the field is too small.", "quantifier": "all ring elements and evaluation points", "why_tests_cant": "all elements", "anchors": ["crates/latticefold-plus/src/setchk.rs: ev"]}
{"id": "C47", "title": "Range check completeness", "statement": "For every list of witnesses whose coefficients have k balanced digits in base d/2, RgInstance::from_f and Rg::range_check (at least two digit matrices in total, constraint matrices with base-field entries, decomposition base d/2) produce a Dcom that Dcom::verify accepts on the same transcript, whose recorded evaluations are the true ones and whose commitments are those of the witness vectors.", "quantifier": "all witnesses in range, all transcripts", "why_tests_cant": "all witnesses and challenges", "anchors": ["crates/latticefold-plus/src/rgchk.rs: RgInstance::from_f, Rg::range_check, Dcom::verify", "crates/latticefold-plus/src/utils.rs: split"]}
{"id": "C48", "title": "Commitment transformation completeness", "statement": "Cm::prove followed by CmProof::verify on the same transcript accepts, the folded commitment equals the commitment of the folded witness, and the reported evaluations are those of the folded witness.", "quantifier": "all instances, all transcripts", "why_tests_cant": "all instances and challenges", "anchors": ["crates/latticefold-plus/src/cm.rs: Cm::prove, CmProof::verify"]}
{"id": "C49", "title": "Decomposition step of LatticeFold+ is lossless", "statement": "Decomp::decompose yields two witnesses of small norm whose B-weighted sum is the input, and DecompProof::verify accepts the accompanying commitments and evaluations for the input instance.", "quantifier": "all witnesses in range", "why_tests_cant": "all witnesses", "anchors": ["crates/latticefold-plus/src/decomp.rs: Decomp::decompose, DecompProof::verify"]}
{"id": "C50", "title": "Committed R1CS linearization completeness (LatticeFold+)", "statement": "For a satisfied committed R1CS, linearize produces a proof that ComR1CSProof::verify accepts on the same transcript, and the resulting linear instance states the true evaluations of f and of the matrices applied to f.", "quantifier": "all satisfied instances, all transcripts", "why_tests_cant": "all instances and challenges", "anchors": ["crates/latticefold-plus/src/r1cs.rs: ComR1CS::linearize, ComR1CSProof::verify"]}
{"id": "C51", "title": "LatticeFold+ end-to-end completeness", "statement": "PlusProver::prove on any satisfied instances yields a proof PlusVerifier::verify accepts on an equal transcript.", "quantifier": "all satisfied instances, all transcripts", "why_tests_cant": "all instances and challenges", "anchors": ["crates/latticefold-plus/src/plus.rs: PlusProver::prove, PlusVerifier::verify"]}
{"id": "C52", "title": "LatticeFold+ verifier binds the commitments", "statement": "If PlusVerifier::verify / CmProof::verify accepts a proof, replacing the witness commitments in the proof by unrelated ones makes it reject (up to hash collisions).", "quantifier": "all proofs", "why_tests_cant": "adversarial proofs; false: commitments are neither absorbed nor checked", "anchors": ["crates/latticefold-plus/src/plus.rs: PlusVerifier::verify", "crates/latticefold-plus/src/cm.rs: CmProof::verify"]}
{"id": "C53", "title": "LatticeFold+ verifier rejects proofs made without a witness", "statement": "No proof assembled without any witness is accepted for every transcript.", "quantifier": "all transcripts", "why_tests_cant": "adversarial proofs; false: an empty proof is accepted", "anchors": ["crates/latticefold-plus/src/cm.rs: CmProof::verify", "crates/latticefold-plus/src/rgchk.rs: Dcom::verify", "crates/latticefold-plus/src/setchk.rs: Out::verify"]}
{"id": "C54", "title": "Set-check evaluation point is the one that was proven", "statement": "In an accepted proof the evaluation point stored with the openings equals the point produced by the sumcheck.", "quantifier": "all accepted proofs", "why_tests_cant": "adversarial proofs; false: the stored point is never compared", "anchors": ["crates/latticefold-plus/src/setchk.rs: Out::verify", "crates/latticefold-plus/src/cm.rs: CmProof::verify", "crates/latticefold-plus/src/r1cs.rs: ComR1CSProof::verify"]}
{"id": "C55", "title": "split accepts a target as long as the data", "statement": "utils::split succeeds whenever the decomposed commitment fits in n entries, padding with zeros.", "quantifier": "all commitments and n", "why_tests_cant": "boundary over all sizes; false when the size equals n", "anchors": ["crates/latticefold-plus/src/utils.rs: split"]}
{"id": "C56", "title": "LatticeFold+ short challenges are bounded and non-degenerate", "statement": "utils::short_challenge returns an element with coefficients in [-u/2, u/2) for u = 2^(lambda/d), for every transcript, and takes at least two values.", "quantifier": "all transcripts, all d and lambda", "why_tests_cant": "all byte outputs and parameters; degenerate when d > lambda", "anchors": ["crates/latticefold-plus/src/utils.rs: short_challenge"]}
{"id": "C57", "title": "Squared-decomposed R1CS is equivalent to the R1CS", "statement": "r1cs_decomposed_square(r1cs, n, B, k) is satisfied by the gadget decomposition of z exactly when r1cs is satisfied by z.", "quantifier": "all R1CS, all z in range", "why_tests_cant": "all instances", "anchors": ["crates/latticefold-plus/src/r1cs.rs: r1cs_decomposed_square"]}
{"id": "C58", "title": "Variable map bookkeeping", "statement": "VariableMap::get returns the last value added under a name and total_len is one plus the sum of the lengths of the variables present.", "quantifier": "all sequences of add calls", "why_tests_cant": "unbounded histories; the total_len half is false when a name is re-added", "anchors": ["crates/latticefold/src/arith/r1cs.rs: VariableMap"]}
{"id": "C59", "title": "Folding enforces the norm bound on every folded instance", "statement": "If the folding verifier accepts an honestly evaluated proof (its theta and eta are the true evaluations of committed witnesses) then, except when a challenge hits a root of a polynomial fixed earlier, every one of the 2K folded witnesses has coefficients of absolute value below b.", "quantifier": "all 2K instances and witnesses, all transcripts", "why_tests_cant": "The last instance gets weight mu = 1, so its tau rows are summed without distinct powers; only a witness whose rows cancel shows it, and no test builds one.", "anchors": ["crates/latticefold/src/nifs/folding/utils.rs:52-95", "crates/latticefold/src/nifs/folding/utils.rs:273-325"]}
{"id": "C60", "title": "Folding verifier soundness", "statement": "For any 2K instances whose commitments are opened by witnesses: either all claimed v and u are the true evaluations of those witnesses and all witnesses but the last (all of them when tau = 1) satisfy the norm bound, or every accepted proof with truthful theta and eta contains a challenge that is a root of a nonzero polynomial of bounded degree fixed before the challenge was drawn.", "quantifier": "all instances, witnesses, proofs and transcripts", "why_tests_cant": "Quantifies over all adversarial proofs and transcripts.", "anchors": ["crates/latticefold/src/nifs/folding.rs:136-194", "crates/latticefold/src/nifs/folding.rs:273-369"]}
{"id": "C61", "title": "Folding scheme soundness for well-shaped proofs", "statement": "If NIFSVerifier::verify accepts a proof whose two decomposition proofs have exactly K components, and witnesses open the 2K component commitments with truthful theta and eta, then the recomposed left witness opens the accumulator, the recomposed right witness satisfies the incoming CCS instance, and the norm bounds hold, unless a challenge of the run is a root of a nonzero low-degree polynomial fixed before it.", "quantifier": "all proofs, accumulators, instances, witnesses and transcripts", "why_tests_cant": "Quantifies over all adversarial proofs; composes three protocol steps.", "anchors": ["crates/latticefold/src/nifs.rs:117-162"]}
{"id": "C62", "title": "Set check soundness", "statement": "If some entry of the tables behind the recorded openings is neither zero nor a unit monomial, an accepted set-check output whose openings are the true evaluations at the sumcheck point implies that the verifier's challenges (c, beta, alpha, batching) hit the zero set of a fixed nonzero low-degree polynomial, or that a sumcheck round challenge hit a root of a nonzero difference polynomial.", "quantifier": "all tables, all prover outputs, all transcripts", "why_tests_cant": "Quantifies over all dishonest provers and all transcripts; tests only run the honest prover.", "anchors": ["crates/latticefold-plus/src/setchk.rs:266-341"]}
{"id": "C63", "title": "Range check accepts ring-valued matrices", "statement": "The same completeness holds when the matrices M passed to range_check have arbitrary ring entries (the type allows them).", "quantifier": "all witnesses in range, all matrices, all transcripts", "why_tests_cant": "The tests pass identity-like matrices; false: psi/ct is only linear over the base field.", "anchors": ["crates/latticefold-plus/src/rgchk.rs: Rg::range_check, Dcom::verify"]}
{"id": "C64", "title": "Range check accepts every decomposition base", "statement": "The same completeness holds for every DecompParameters.b for which all digits lie in the domain of exp.", "quantifier": "all parameters b, k", "why_tests_cant": "Tests use b = d/2 only; false: the verifier recomposes with the hard-coded base d/2 instead of b.", "anchors": ["crates/latticefold-plus/src/rgchk.rs: DecompParameters, Dcom::verify"]}
{"id": "C65", "title": "Range check accepts a single digit", "statement": "The same completeness holds for one instance with k = 1.", "quantifier": "all witnesses with one digit, all transcripts", "why_tests_cant": "Tests use k >= 2; false: one matrix with a vector is the case of C45, and Dcom::verify unwraps the error.", "anchors": ["crates/latticefold-plus/src/rgchk.rs: Dcom::verify", "crates/latticefold-plus/src/setchk.rs: set_check"]}
{"id": "C66", "title": "Reduced commitments bound per instance", "statement": "If CmProof::verify accepts a proof whose instance commitments are the true ones, then for every instance the commitment in the reduced instance is the commitment of that instance's folded witness.", "quantifier": "all proofs, all transcripts, two or more instances", "why_tests_cant": "Tests only run the honest prover; false: the terms <t(z), tau_l> - tcch_l of all instances are batched with the same power of the challenge, so only the sum over the instances is checked.", "anchors": ["crates/latticefold-plus/src/cm.rs: CmProof::verify, Cm::sumchecker"]}
{"id": "C67", "title": "The folded instance in a proof is bound by the verifier", "statement": "If PlusVerifier::verify accepts a proof, the folded instance stored in it (commitment, points, evaluations) is the one derived by CmProof::verify from the folded commitments; no other instance is accepted with the same commitment-transformation proof.", "quantifier": "all accepted proofs, all transcripts", "why_tests_cant": "Tests only run the honest prover; false: the result of CmProof::verify is dropped and the decomposition is checked against the prover's own copy.", "anchors": ["crates/latticefold-plus/src/plus.rs: PlusVerifier::verify"]}
{"id": "C68", "title": "Accumulated claims are checked", "statement": "A prover whose accumulated instance states a false commitment or false evaluations is rejected.", "quantifier": "all accumulated instances", "why_tests_cant": "Tests only fold true instances; false: prover and verifier never read the commitment, points and evaluations of the accumulated instances.", "anchors": ["crates/latticefold-plus/src/plus.rs: PlusProver::prove, PlusVerifier::verify", "crates/latticefold-plus/src/mlin.rs: Mlin::mlin"]}
{"id": "C69", "title": "estimate_bound gives a sufficient decomposition base", "statement": "With a decomposition base B of at least estimate_bound(sop, L, d, k) and B <= b^k, every run of any number of steps that fold at most L satisfied instances each is accepted, whatever the challenges; estimate_bound is the least non-negative integer with sop*L*(B + d/2 + d*k + 1) <= B^2.", "quantifier": "all runs, all challenge values, all parameters", "why_tests_cant": "worst-case norms do not occur in tests; the number of steps is unbounded", "anchors": ["crates/latticefold-plus/src/utils.rs: estimate_bound", "crates/latticefold-plus/src/plus.rs: PlusProver::prove"]}
{"id": "C70", "title": "Every sumcheck challenge is drawn after the message it must depend on", "statement": "The calls an accepted sumcheck verifier makes on the transcript are exactly: absorb the number of variables and the degree, then for every round absorb the message, draw the challenge, absorb the challenge. The state from which the i-th challenge is drawn determines the messages of rounds 0..i.", "quantifier": "all transcripts, proofs, sizes, rounds", "why_tests_cant": "An implementation in which prover and verifier both forget to absorb a message passes every completeness test.", "anchors": ["crates/latticefold/src/utils/sumcheck/prover.rs", "crates/latticefold/src/utils/sumcheck/verifier.rs: verify_round, check_and_generate_subclaim", "crates/latticefold/src/utils/sumcheck.rs: MLSumcheck::verify_as_subprotocol"]}
{"id": "C71", "title": "The folding challenges rho depend on the statement and on the whole proof", "statement": "The calls NIFSVerifier::verify makes are exactly the stated schedule (public input, linearization, two decompositions, folding), and two accepted runs of equal shape that have made the same calls when the first rho is drawn have the same accumulator, the same incoming instance and the same proof.", "quantifier": "all transcripts, statements, proofs, parameters", "why_tests_cant": "Weak Fiat-Shamir (a value that is sent but not absorbed before the challenge) is invisible to honest runs.", "anchors": ["crates/latticefold/src/nifs.rs: NIFSVerifier::verify", "crates/latticefold/src/nifs/linearization.rs", "crates/latticefold/src/nifs/decomposition.rs", "crates/latticefold/src/nifs/folding.rs"]}
{"id": "C72", "title": "The LatticeFold+ challenges depend on everything the prover sends", "statement": "Two accepted runs of PlusVerifier::verify of equal shape which make the same calls on the transcript have the same proof, in particular the same witness commitments.", "quantifier": "all transcripts, proofs, parameters", "why_tests_cant": "As C71; false: the commitments, the evaluations v and b, the points and the folded instance are never absorbed.", "anchors": ["crates/latticefold-plus/src/plus.rs: PlusVerifier::verify", "crates/latticefold-plus/src/cm.rs: CmProof::verify", "crates/latticefold-plus/src/rgchk.rs: Dcom::verify"]}
{"id": "C73", "title": "Witnesses can be extracted from a prover that answers several folding challenges", "statement": "From 2K accepted runs on one statement and proof whose short challenge vectors differ in one entry each by an invertible difference, and the witnesses of the 2K output instances, openings of all component commitments are computed; theta and eta in the proof are the true evaluations of these openings. Hence for fixed openings, the accumulator relation and the CCS relation of the incoming instance hold for the recomposed openings, or a challenge hit a root of a polynomial fixed before it, or two different openings of one commitment are known.", "quantifier": "all parameters, statements, proofs, transcripts, ways of drawing the short challenges", "why_tests_cant": "Knowledge soundness is about all provers; tests run the honest one.", "anchors": ["crates/latticefold/src/nifs.rs: NIFSVerifier::verify", "crates/latticefold/src/nifs/folding.rs: LFFoldingVerifier::verify", "crates/latticefold/src/nifs/folding/utils.rs: get_rhos, compute_v0_u0_x0_cm_0"]}
{"id": "C74", "title": "Range check soundness", "statement": "If Dcom::verify accepts and the openings e, b, v, a[0], b[0] in the proof are those of the tables at the sumcheck point, then all digit matrices and mtau consist of zeros and unit monomials, the digits recompose to the coefficients of f and mtau encodes tau; hence every coefficient of f is below (d/2)^k and every entry of tau below d/2 -- or a verifier challenge hit a set fixed before it was drawn.", "quantifier": "all numbers of instances, all tables, all proofs of the right shape, all transcripts", "why_tests_cant": "Soundness is about all proofs; tests run the honest prover.", "anchors": ["crates/latticefold-plus/src/rgchk.rs: Dcom::verify, check_eval", "crates/latticefold-plus/src/setchk.rs: Out::verify"]}
{"id": "C75", "title": "The commitment transformation bounds the committed witness", "statement": "If CmProof::verify accepts a proof whose commitments are those of witnesses f and whose openings e, a, b, c are true of the instances, then every coefficient of every f is below b^k.", "quantifier": "all witnesses, matrices, proofs, transcripts", "why_tests_cant": "A test only sees honest openings v; false: v is the only opening whose range is checked, and it is never compared with c[0] (the evaluation of f that is folded), nor absorbed.", "anchors": ["crates/latticefold-plus/src/rgchk.rs: Dcom::verify (193-241)", "crates/latticefold-plus/src/cm.rs: CmProof::verify"]}
{"id": "C76", "title": "The range check bounds tau", "statement": "If Dcom::verify accepts a proof all of whose evaluations v, a, b, c and openings e are the true ones, then mtau consists of zeros and unit monomials and every entry of tau is below d/2.", "quantifier": "all instances, proofs, transcripts", "why_tests_cant": "Tests never feed openings of the set check that differ from the evaluations; false: out.b, checked to be the opening of a monomial vector, is not compared with eval.b[0], from which tau is decoded.", "anchors": ["crates/latticefold-plus/src/rgchk.rs: Dcom::verify (193-241)"]}
{"id": "C77", "title": "LatticeFold+ linearization soundness", "statement": "If ComR1CSProof::verify accepts and the values va, vb, vc in the proof are the evaluations of A f, B f, C f at the point of its sumcheck, then f satisfies all rows of the R1CS, or a verifier challenge hit a set of bounded size fixed before it was drawn.", "quantifier": "all R1CS matrices, all vectors f, all proofs, all transcripts", "why_tests_cant": "Soundness is about all proofs; tests run the honest prover.", "anchors": ["crates/latticefold-plus/src/r1cs.rs: ComR1CSProof::verify (136-162)"]}
{"id": "C78", "title": "Commitment transformation soundness", "statement": "If CmProof::verify accepts and the evaluations in the proof are those of vectors tau, mtau, f, h at the points of its two sumchecks, then all evaluations a, b, c and the combinations u of the openings e claimed at the stored point are those of the same vectors, and the commitments of h summed over the instances equal the double commitment recomposed from tau times the challenges s', or in both repetitions a challenge hit a set of bounded size fixed before it was drawn.", "quantifier": "all numbers of instances, all vectors and matrices, all proofs of the right shape, all transcripts", "why_tests_cant": "Soundness is about all proofs; tests run the honest prover.", "anchors": ["crates/latticefold-plus/src/cm.rs: CmProof::verify (349-538)"]}
{"id": "C79", "title": "The commitment transformation with the missing comparisons bounds the witnesses", "statement": "If CmProof::verify accepts and in addition the stored point is the set check's sumcheck point, out.b is b[0], and v is the coefficient vector of c[0], then for true evaluations at the final points (with h the combination of the digit matrices by s') every instance is well formed: digit matrices and mtau of zeros and unit monomials, digits of f, mtau encoding tau, or a verifier challenge hit a set of bounded size fixed before it was drawn.", "quantifier": "all instances of the right shape, all proofs of the right shape, all transcripts", "why_tests_cant": "Soundness is about all proofs; it also shows that the three comparisons are exactly what is missing for C75 and C76.", "anchors": ["crates/latticefold-plus/src/cm.rs: CmProof::verify (349-538)", "crates/latticefold-plus/src/rgchk.rs: Dcom::verify (193-241)"]}
{"id": "C80", "title": "Short challenges form a strong sampling set", "statement": "For each of the four rings, two different byte strings of the required length decode to short challenges whose difference is a unit of the ring.", "quantifier": "all pairs of byte strings, all four rings", "why_tests_cant": "2^256 pairs per ring; the statement is about the splitting of the cyclotomic polynomials modulo the primes.", "anchors": ["crates/cyclotomic-rings/src/rings/goldilocks.rs: short_challenge_from_random_bytes", "crates/cyclotomic-rings/src/rings/babybear.rs", "crates/cyclotomic-rings/src/rings/frog.rs", "crates/cyclotomic-rings/src/rings/stark.rs", "crates/cyclotomic-rings/src/challenge_set.rs"]}
{"id": "C81", "title": "The shipped rings satisfy the ring interface", "statement": "The moduli are prime, and for each of the four rings F_p[X]/Phi is isomorphic (CRT) to the product of k copies of the extension field of degree e, so that all laws assumed of a suitable ring hold: CRT and ICRT are mutually inverse ring homomorphisms, multiplication by X is rotation, coefficients embed.", "quantifier": "the four rings, all ring elements", "why_tests_cant": "Primality and the field laws of the extensions are not observable by tests.", "anchors": ["crates/cyclotomic-rings/src/rings/goldilocks.rs (10-20)", "crates/cyclotomic-rings/src/rings/babybear.rs (10-20)", "crates/cyclotomic-rings/src/rings/frog.rs (9-21)", "crates/cyclotomic-rings/src/rings/stark.rs", "crates/cyclotomic-rings/src/rings.rs: SuitableRing"]}
{"id": "C82", "title": "Extraction for the shipped rings from distinct challenges", "statement": "For each of the four rings, 2K accepting runs of the folding verifier on one statement and proof whose squeezed bytes agree except that run j+1 redraws challenge j, together with witnesses of the outputs, yield openings of all commitments; and the conclusion of C73 holds with no assumption on the challenges other than that the redrawn bytes differ.", "quantifier": "four rings, all proofs, all runs, all transcripts", "why_tests_cant": "Knowledge soundness is about all provers.", "anchors": ["crates/latticefold/src/nifs.rs: NIFSVerifier::verify", "crates/latticefold/src/nifs/folding.rs: LFFoldingVerifier::verify", "crates/latticefold/src/transcript/poseidon.rs: get_short_challenge (69-74)"]}
{"id": "C83", "title": "The shipped decomposition parameters support folding chains", "statement": "Every shipped parameter set covers its prime and its base, and folding any number of fresh true instances into an accumulator with it succeeds: every honest proof is accepted and all accumulators are true and have witnesses within the range of K base-b digits, whatever bytes are squeezed for the short challenges.", "quantifier": "four rings, all parameter sets of decomposition_parameters.rs and benches/config.toml, all CCS of fitting size, all chains, all transcripts", "why_tests_cant": "Tests fold once with random challenges; the claim is about all challenges and all chain lengths.", "anchors": ["crates/latticefold/src/decomposition_parameters.rs (73-113)", "crates/latticefold/benches/config.toml", "crates/latticefold/src/nifs.rs: NIFSProver::prove, NIFSVerifier::verify"]}
{"id": "C84", "title": "Honest folds of true accumulators are accepted", "statement": "If the accumulator output by an accepted honest fold is folded with a further true instance by the honest prover, the proof is accepted; in general an honest proof with an accumulator witness outside the range of its digits is rejected except when the accumulator's point lies in a set of at most a fraction s/|S| of all points.", "quantifier": "four rings, all shipped parameter sets, all CCS, all instances and transcripts", "why_tests_cant": "The failing case needs two folds and large digits; the rejection bound is about all points.", "anchors": ["crates/latticefold/src/nifs.rs: NIFSProver::prove, NIFSVerifier::verify", "crates/latticefold/src/nifs/decomposition.rs: LFDecompositionProver::prove, LFDecompositionVerifier::verify"]}
{"id": "C85", "title": "The Poseidon configurations are permutations with MDS matrices", "statement": "For each of the four rings the Poseidon tables have the dimensions PoseidonConfig::new asserts, the S-box exponent is prime to p - 1 and the permutation is a bijection of the states; the matrix is maximum distance separable: two different states differ in at least width + 1 places before and after it together.", "quantifier": "four configurations, all states", "why_tests_cant": "The state space has p^24 (p^3) elements; tests compare one output.", "anchors": ["crates/cyclotomic-rings/src/rings/poseidon/goldilocks.rs", "crates/cyclotomic-rings/src/rings/poseidon/babybear.rs", "crates/cyclotomic-rings/src/rings/poseidon/frog.rs", "crates/cyclotomic-rings/src/rings/poseidon/stark.rs"]}
{"id": "C86", "title": "The Poseidon transcript is a duplex sponge that binds what was absorbed", "statement": "Absorbing and squeezing through PoseidonTranscript amount to handling one field element at a time; ring elements and challenges are encoded without loss, no operation panics, and two histories of operations that lead to the same sponge, or to the same later challenges, absorbed the same elements unless the permutation collides on the capacity part of the state.", "quantifier": "four rings, all histories of absorb, get_challenge and get_short_challenge", "why_tests_cant": "Quantifies over all histories, block offsets and pairs of messages.", "anchors": ["crates/latticefold/src/transcript/poseidon.rs: PoseidonTranscript::absorb, get_challenge, squeeze_bytes, get_short_challenge", "crates/latticefold-plus/src/transcript.rs: PoseidonTranscript::absorb, get_challenge"]}
{"id": "C87", "title": "Short challenges of the Poseidon transcript are close to uniform and make the folding protocol complete", "statement": "If the squeezed field elements are uniform, each short challenge comes from at most 1.1 times the uniform share of the tuples of field elements; each byte string is read from floor(p/256^n) or one more field elements; and with the wide shipped parameters the folding protocol run with the Poseidon transcript is complete for any number of folds.", "quantifier": "four rings, all short challenges, all byte strings, all chains of instances and transcript states", "why_tests_cant": "A distribution over p^3 or more tuples cannot be enumerated; chains have any length.", "anchors": ["crates/latticefold/src/transcript/poseidon.rs: get_short_challenge", "crates/cyclotomic-rings/src/rings/goldilocks.rs: GoldilocksChallengeSet", "crates/cyclotomic-rings/src/rings/stark.rs: StarkChallengeSet", "crates/latticefold/src/nifs.rs: NIFSProver::prove, NIFSVerifier::verify"]}
{"id": "C88", "title": "Soundness error of the sumcheck", "statement": "If the claimed sum is not the sum of the polynomial over the hypercube then, whatever messages the prover sends (each depending on the challenges revealed so far), the verifier accepts with a true final value on at most n d |S|^(n-1) of the |S|^n vectors of challenges from S.", "quantifier": "all numbers of variables and degrees, all polynomials of bounded individual degree, all adaptive provers, all finite challenge sets", "why_tests_cant": "An error probability over |S|^n challenge vectors and over all provers cannot be sampled.", "anchors": ["crates/latticefold/src/utils/sumcheck.rs: MLSumcheck::verify_as_subprotocol", "crates/latticefold/src/utils/sumcheck/verifier.rs: verify_round, check_and_generate_subclaim"]}
{"id": "C89", "title": "Soundness error of the folding step", "statement": "For fixed openings of the commitments and every adaptive prover, if decomposition proofs have K components, theta and eta are the evaluations of the openings and the incoming witness is fixed, NIFSVerifier::verify accepts although the accumulator or the incoming instance is false (or a component out of range) on at most s + s(d+1) + (6K-1+s) max(tau,t) + 2bs out of |S| of all coin vectors.", "quantifier": "all CCS, all parameters, all instances, all adaptive provers, all finite challenge sets", "why_tests_cant": "The error is a count over all coin vectors and all provers.", "anchors": ["crates/latticefold/src/nifs.rs: NIFSVerifier::verify", "crates/latticefold/src/nifs/linearization.rs: LFLinearizationVerifier::verify", "crates/latticefold/src/nifs/decomposition.rs: LFDecompositionVerifier::verify", "crates/latticefold/src/nifs/folding.rs: LFFoldingVerifier::verify"]}
{"id": "C90", "title": "128 bits of soundness with the shipped rings and parameters", "statement": "The challenges of each of the four rings are the elements of a field with at least 2^191 elements, each from exactly one tuple of squeezed elements; with every shipped parameter set and every CCS of degree below 2^13 with at most 2^13 matrices, an adversary making at most 2^50 oracle queries makes the folding verifier accept a false instance on at most 2^-128 of all oracle answers.", "quantifier": "four rings, all shipped parameter sets, all such CCS, all adversaries", "why_tests_cant": "The statement is about 2^9600 and more oracle answers and all adversaries.", "anchors": ["crates/cyclotomic-rings/src/rings/goldilocks.rs", "crates/cyclotomic-rings/src/rings/babybear.rs", "crates/cyclotomic-rings/src/rings/frog.rs", "crates/cyclotomic-rings/src/rings/stark.rs", "crates/latticefold/src/transcript/poseidon.rs: get_challenge", "crates/latticefold/src/decomposition_parameters.rs (73-113)", "crates/latticefold/src/nifs.rs: NIFSVerifier::verify"]}
{"id": "C91", "title": "The sumcheck is sound as a non-interactive argument in the random oracle model", "statement": "With challenges answered by a random oracle on the whole transcript history, an adversary that asks Q adaptive questions and then outputs a proof of a wrong sum is accepted on at most Q d |S|^(Q-1) of the |S|^Q answer vectors.", "quantifier": "all polynomials, all adversaries, all initial transcript histories, all finite challenge sets", "why_tests_cant": "Quantifies over all adversaries and oracle answers.", "anchors": ["crates/latticefold/src/utils/sumcheck.rs: MLSumcheck::verify_as_subprotocol", "crates/latticefold/src/utils/sumcheck/verifier.rs"]}
{"id": "C92", "title": "The folding step is sound as a non-interactive argument in the random oracle model", "statement": "With challenges answered by a random oracle on the whole transcript history, an adversary that asks Q adaptive questions and outputs a proof fools the folding verifier (accepts although an input instance is false, as in C89) on at most Q max(d+1, tau, t, 2b) |S|^(Q-1) of the |S|^Q answer vectors; the order of absorptions and challenges in the code suffices for this.", "quantifier": "all CCS, parameters, instances, initial histories, adversaries and finite challenge sets", "why_tests_cant": "A Fiat-Shamir ordering mistake shows only under an adaptive adversary; the bound is over all of them.", "anchors": ["crates/latticefold/src/nifs.rs: NIFSVerifier::verify", "crates/latticefold/src/nifs/linearization.rs", "crates/latticefold/src/nifs/linearization/utils.rs", "crates/latticefold/src/nifs/decomposition.rs", "crates/latticefold/src/nifs/folding.rs", "crates/latticefold/src/nifs/folding/utils.rs"]}
{"id": "C93", "title": "estimate_bound returns the least bound that survives folding, in spite of floating-point rounding", "statement": "With a = sop*L and c = d/2 + d*k + 1, estimate_bound returns the least b with a(b+c) <= b^2.", "quantifier": "all sop, L >= 1, d, k", "why_tests_cant": "A rounding error appears only for particular large arguments; the claim is for all.", "anchors": ["crates/latticefold-plus/src/utils.rs: estimate_bound"]}
{"id": "C94", "title": "check_ring_modulus_128_bits_security accepts exactly the parameter sets that satisfy its three inequalities", "statement": "With B = 2^(2 sqrt(log2 1.0045) sqrt(degree kappa log2 q)) the function returns true iff B < q/2, b < B/sqrt(degree num_cols) and b^l > q/2.", "quantifier": "all moduli, parameters, and implementations of powf and ln", "why_tests_cant": "Saturating conversions are wrong only beyond 2^64; the function has no tests.", "anchors": ["crates/latticefold/src/utils/security_check.rs: calculate_bound_l2", "crates/latticefold/src/utils/security_check.rs: check_ring_modulus_128_bits_security"]}
{"id": "C95", "title": "Domain separation tags are absorbed as distinct field elements", "statement": "The absorbed element of a tag is its big-endian value, and different tags give different ring elements in each of the four rings.", "quantifier": "all transcripts, all pairs of tags, the four characteristics", "why_tests_cant": "Values are reduced modulo a 31-bit prime for BabyBear; distinctness is a fact about all pairs and all rings with these characteristics.", "anchors": ["crates/latticefold/src/nifs.rs: absorb_public_input", "crates/latticefold/src/nifs/folding/utils.rs", "crates/latticefold/src/nifs/linearization/utils.rs"]}
{"id": "C96", "title": "Random test polynomials come with the right sum", "statement": "rand_poly_comb_fn computes the sum of products and panics exactly on an index out of range; the sum returned by rand_poly is the sum over the cube of that function of the returned tables, and the sumcheck accepts it.", "quantifier": "all products, values, and outputs of the random generator", "why_tests_cant": "The sumcheck tests rely on it; a test of a test helper covers only the seeds used.", "anchors": ["crates/latticefold/src/utils/sumcheck/utils.rs: rand_poly", "crates/latticefold/src/utils/sumcheck/utils.rs: rand_poly_comb_fn"]}
{"id": "C97", "title": "Witness::within_bound bounds the norm of the witness", "statement": "within_bound(b) holds iff all coefficients have absolute value below b.", "quantifier": "all rings, witnesses and bounds", "why_tests_cant": "Unused and untested; wrong for every witness with a negative coefficient.", "anchors": ["crates/latticefold/src/arith.rs: Witness::within_bound"]}
{"id": "C98", "title": "Decompose-and-commit commits to a short preimage", "statement": "decompose_and_commit_ntt commits to the same vector as the witness constructor; the result is the commitment of a vector of norm at most B/2 that recomposes to the input; it fails exactly on wrong lengths.", "quantifier": "all rings, parameters that cover the modulus, matrices and vectors", "why_tests_cant": "Equality of two code paths for all inputs.", "anchors": ["crates/latticefold/src/commitment/commitment_scheme.rs: decompose_and_commit_coeff", "crates/latticefold/src/commitment/commitment_scheme.rs: decompose_and_commit_ntt"]}
{"id": "C99", "title": "Soundness error of the monomial set check", "statement": "Whatever the prover does, of the |S|^N coin vectors at most (M*D + 3n)|S|^(N-1) make the set check accept the true evaluations of columns one of whose entries is not a monomial (M batching challenges, D = 2d + columns + claims); against Q questions to a random oracle the bound is Q*max(D,3)|S|^(Q-1).", "quantifier": "all rings satisfying the interface, sizes, column sets, prover strategies, sets S of challenges, numbers of questions", "why_tests_cant": "A probability over all coins and a quantifier over all provers.", "anchors": ["crates/latticefold-plus/src/setchk.rs: Out::verify", "crates/latticefold-plus/src/transcript.rs"]}
{"id": "C100", "title": "Soundness error of the range check", "statement": "The same for the range check and instances which are not well formed: a digit entry that is no monomial, digits not composing to f, or tau not decoded from m_tau.", "quantifier": "all rings, instances, prover strategies, sets of challenges, numbers of questions", "why_tests_cant": "A probability over all coins and a quantifier over all provers.", "anchors": ["crates/latticefold-plus/src/rgchk.rs: Dcom::verify"]}
{"id": "C101", "title": "128-bit soundness of the LatticeFold+ linearization", "statement": "A false R1CS is accepted with probability at most 2^-128. In detail: the probability is at most 4n/|S| (3Q/|S| against a random oracle), and for every R1CS some prover reaches 1/|S|.", "quantifier": "all rings, R1CS, witnesses, provers; the Frog ring for the 2^-128", "why_tests_cant": "Tests never see an event of probability 2^-64; the defect is the size of the challenge space, not a wrong result.", "anchors": ["crates/latticefold-plus/src/lin.rs: LinearizedVerify", "crates/latticefold-plus/src/transcript.rs: get_challenge"]}
{"id": "C102", "title": "Small helpers compute what their names say", "statement": "extract_sum returns the sum a proof is accepted for (and no other), and panics exactly when the first message has fewer than two values; bit_decompose is the bits least significant first; evaluate_mles on vectors gives all values or the first length error; set_one changes only the index of the one; the sets of a range instance are those the prover checks.", "quantifier": "all proofs, indices, lists of vectors, points, variable maps, range instances", "why_tests_cant": "Universally quantified; extract_sum and set_one have no test.", "anchors": ["crates/latticefold/src/utils/sumcheck.rs: MLSumcheck::extract_sum", "crates/latticefold/src/utils/sumcheck/utils.rs: bit_decompose", "crates/latticefold/src/utils/mle_helpers.rs: evaluate_mles", "crates/latticefold/src/arith/r1cs.rs: VariableMap::set_one", "crates/latticefold-plus/src/rgchk.rs: RgInstance::sets"]}
{"id": "C103", "title": "The Poseidon sponge binds statement and proof of the folding verifier", "statement": "Two accepted runs from one sponge, with statements and proofs of the same shape, are histories of sponge operations; if the sponges before the folding challenges or at the end agree, then the statements and proofs agree, or the two histories contain a collision of the capacity part of the permutation.", "quantifier": "the four rings and Poseidon configurations, all parameters, CCS, statements, proofs, starting sponges", "why_tests_cant": "A statement about all pairs of proofs; tests would need a collision.", "anchors": ["crates/latticefold/src/nifs.rs: NIFSVerifier::verify", "crates/latticefold/src/transcript/poseidon.rs", "crates/cyclotomic-rings/src/rings/poseidon/"]}
{"id": "C104", "title": "Size of folding proofs", "statement": "An honest proof has exactly log2(m)(d + 2b + 3) + 2K(l + 1 + kappa) + (4K + 1)(tau + t) ring elements, whatever the witnesses; two honest proofs for one CCS have the same shape.", "quantifier": "all rings, parameters, CCS, matrices, instances, witnesses, transcripts", "why_tests_cant": "Exact count for all parameters; tests do not look at sizes.", "anchors": ["crates/latticefold/src/nifs.rs: LFProof", "crates/latticefold/src/nifs/linearization/structs.rs", "crates/latticefold/src/nifs/decomposition/structs.rs", "crates/latticefold/src/nifs/folding/structs.rs"]}
{"id": "C105", "title": "Knowledge error of the folding step", "statement": "Fix a statement, a proof and a transcript state, and a set S of byte strings. If a prover answers with a valid output witness for more than (2K-1)|S|^(2K-2) of the |S|^(2K-1) vectors of bytes squeezed for the folding challenges, then openings of all 2K commitments are obtained from its answers, and the inputs of the step are true or one of the bad events of C73 happened. For the shipped parameter sets the fraction (2K-1)/|S| is at most 2^-120 when S is the set of all byte strings of the length that is squeezed.", "quantifier": "the four rings, all parameters, CCS, statements, proofs, provers, sets of byte strings", "why_tests_cant": "A statement about all cheating provers and all challenge vectors; tests run one honest prover.", "anchors": ["crates/latticefold/src/nifs/folding.rs: verify", "crates/latticefold/src/nifs/folding/utils.rs: get_rhos", "crates/cyclotomic-rings/src/challenge_set.rs"]}
{"id": "C106", "title": "Systems passing the size check can be folded", "statement": "A satisfied CCS that passes sanity_check, with a witness as Witness::from_w_ccs makes it, is folded by the honest prover.", "quantifier": "the four rings, all shipped parameter sets, CCS, witnesses, transcripts", "why_tests_cant": "The tests use systems with m = next_power_of_two((n-l-1)L) only.", "anchors": ["crates/latticefold/src/nifs.rs: sanity_check", "crates/latticefold/src/nifs/linearization.rs: prove", "crates/latticefold/src/arith.rs: from_r1cs_padded"]}
{"id": "C107", "title": "Sizes for which the commitment transformation of LatticeFold+ answers", "statement": "For witnesses of any length n with nvars = log2(n) whose range-check instances are made, and matrices with n columns, Cm::prove answers. (It does so only if n = 2^nvars as soon as there is a matrix, and only if next_power_of_two(kappa) k l d^2 <= n.)", "quantifier": "all rings, parameters, witnesses, matrices, transcripts", "why_tests_cant": "The tests use powers of two that are large enough.", "anchors": ["crates/latticefold-plus/src/cm.rs: Cm::prove", "crates/latticefold-plus/src/rgchk.rs: RgInstance::from_f", "crates/latticefold-plus/src/utils.rs: split"]}
{"id": "C108", "title": "Soundness of the decomposition of LatticeFold+", "statement": "DecompProof::verify accepts exactly when every entry of the folded commitment and every claimed evaluation at both points is the sum, with weights 1 and B, of the two parts. If both parts are true instances of norm B, the folded instance is true with witness F0 + B F1 and norm B + B^2; the same for the instance carried by an accepted proof of a whole step.", "quantifier": "all rings, bases, matrices, points, witnesses, proofs, transcripts", "why_tests_cant": "Tests run the honest prover and never look at what a wrong proof is rejected for.", "anchors": ["crates/latticefold-plus/src/decomp.rs: DecompProof::verify", "crates/latticefold-plus/src/plus.rs: PlusVerifier::verify"]}
{"id": "C109", "title": "Wrong evaluations survive the folding challenges with small probability", "statement": "The evaluations theta and eta of a folding proof are checked only through the final sum. Given openings of the 2K commitments, the vectors of folding challenges for which the verifier accepts wrong theta or eta and the combination of the openings satisfies the output instance number at most |S|^(2K-2) of |S|^(2K-1). Together with C89: a prover that has a true output instance without the inputs being true, or a collision of the commitment, succeeds with probability at most 2^-119 over all challenges and all byte strings, in each of the four rings, as long as the sum of the degrees is at most 2^63.", "quantifier": "all rings of cyclotomic-rings, parameters, CCS, instances, openings, provers", "why_tests_cant": "The bound is over all challenge vectors; tests draw one.", "anchors": ["crates/latticefold/src/nifs/folding.rs: verify, get_rhos", "crates/latticefold/src/nifs/folding/utils.rs: compute_v0_u0_x0_cm_0"]}
{"id": "C110", "title": "Soundness of chains of folding steps", "statement": "In a chain of accepted folding steps whose last accumulator is true and whose commitments have openings, every accumulator and every instance folded in is true, with the recomposed openings as witnesses, unless a bad challenge (C89, C92, C109) or two openings of one commitment occur in some step. Honest chains meet the hypotheses.", "quantifier": "all rings, parameters, CCS, chains of any length, transcripts", "why_tests_cant": "Induction over chains of any length and over dishonest proofs.", "anchors": ["crates/latticefold/src/nifs.rs: NIFSVerifier::verify"]}
{"id": "C111", "title": "A true folded instance of LatticeFold+ has true parts", "statement": "If the verifier of the commitment transformation accepts and the instance obtained by adding up the reduced instances is true, then each reduced instance is true.", "quantifier": "all rings, parameters, two or more instances, transcripts", "why_tests_cant": "False: the instances are added with coefficient 1 (TODO in mlin.rs), so an error in one is cancelled by the opposite error in another; tests run the honest prover.", "anchors": ["crates/latticefold-plus/src/mlin.rs: Mlin::mlin", "crates/latticefold-plus/src/cm.rs: CmProof::verify"]}
{"id": "C112", "title": "Error of a chain of folding steps", "statement": "For a chain of k accepted folding steps that ends in a true accumulator, with openings of all commitments within the bound and no two openings of one commitment, the number of challenge vectors for which some accumulator or instance of the chain is false is at most k |U|^(k-1) times the bound of one step, against a prover that chooses each step after seeing the challenges of the previous ones. With shipped parameters this is at most k 2^-119 of all challenges.", "quantifier": "all shipped rings and parameters, CCS within stated sizes, chains of any length, adaptive provers", "why_tests_cant": "A count over all challenges and all provers; the sets have more than 2^119 elements.", "anchors": ["crates/latticefold/src/nifs.rs: NIFSVerifier::verify", "crates/latticefold/src/nifs/folding/utils.rs: get_rhos"]}
{"id": "C113", "title": "Wrong sizes are reported as errors", "statement": "create_sumcheck_polynomial returns IncorrectLength exactly when one of its five lists has the wrong length; the folding prover returns IncorrectLength unless it is given 2K instances and yields no proof without 2K witnesses and 2K lists of tables; the decomposition verifier returns IncorrectLength if a component has an empty public part. Tables of multilinear polynomials are added entry by entry; there is no sum of tables with different numbers of variables unless one is the zero constant.", "quantifier": "all rings, parameters, lists", "why_tests_cant": "Every combination of lengths, for every parameter set.", "anchors": ["crates/latticefold/src/nifs/folding/utils.rs: create_sumcheck_polynomial", "crates/latticefold/src/nifs/folding.rs: LFFoldingProver::prove", "crates/latticefold/src/nifs/decomposition.rs: verify"]}
{"id": "C114", "title": "Machine integers hold the weights and counts of the decomposition and folding steps", "statement": "For all parameters that meet the documented conditions, calculate_b_s computes the powers b^i (i < K) without overflow of u128, and 2K-1 does not underflow.", "quantifier": "all decomposition parameters, rings, proofs", "why_tests_cant": "False in general: the conditions do not bound K from above; b^(K-1) >= 2^128 panics in debug builds and gives weight 0 in release builds. Holds for all shipped parameters and for the smallest K that covers B.", "anchors": ["crates/latticefold/src/nifs/decomposition.rs: calculate_b_s", "crates/latticefold/src/nifs/folding/utils.rs: squeeze_alpha_beta_zeta_mu, get_rhos"]}
{"id": "C115", "title": "Proofs survive serialisation", "statement": "For the four shipped rings, deserialising the bytes of a folding proof gives the proof back and consumes exactly its bytes; a byte string is read as a proof only if it is the encoding of that proof (encodings are canonical, different proofs have different bytes and no encoding is the beginning of another); the verifier's answer on the bytes is its answer on the proof; the number of bytes is d*fp_bytes per ring element plus eight per vector, and for the honest prover a function of the parameters and the shape of the CCS.", "quantifier": "all four rings, all proofs whose vectors have fewer than 2^64 entries, all byte strings", "why_tests_cant": "The repository's tests write and read one proof per ring; non-canonical and truncated byte strings are not enumerable.", "anchors": ["crates/latticefold/src/nifs.rs: LFProof", "crates/latticefold/src/nifs/linearization/structs.rs: LinearizationProof", "crates/latticefold/src/nifs/decomposition/structs.rs: DecompositionProof", "crates/latticefold/src/nifs/folding/structs.rs: FoldingProof", "crates/latticefold/src/utils/sumcheck.rs: Proof", "crates/latticefold/src/commitment/homomorphic_commitment.rs: Commitment"]}
{"id": "C116", "title": "Soundness error of the LatticeFold+ commitment transformation", "statement": "Whatever the bytes of the short challenges and whatever a prover does, of the |S|^N vectors of field challenges at most ((L(4+4|M|)+1+2nv)^2 + (log2 kappa)^2)*|S|^(N-2) make CmProof::verify accept, with true evaluations at the two final points, although one of the claims the proof makes at the point of the range check (the values of the witness vectors, their images under the matrices, the commitments of h folded by the challenges) is false: the two repetitions square the error of a single sumcheck.", "quantifier": "all rings with the stated laws, all numbers of instances and matrices, all byte tapes, all adaptive strategies of the prover, all finite challenge sets", "why_tests_cant": "The test of cm.rs runs an honest proof; how many of the challenge vectors a cheating prover can win is a statement about all strategies and all challenges.", "anchors": ["crates/latticefold-plus/src/cm.rs: CmProof::verify", "crates/latticefold-plus/src/cm.rs: verify_sumcheck"]}
{"id": "C117", "title": "All claims of the commitment transformation are fixed before its batching challenges", "statement": "Whatever a prover does, a proof accepted by CmProof::verify with the comparisons of C79 added comes from witnesses in the range, except for few challenges. This is false: absorb_evaluations leaves out eval.b, so the b of every instance can be chosen after both batching challenges, which makes two linear equations in two unknowns. For every transcript an explicit prover gets any witnesses through that agree with in-range ones on the one coefficient that psi reads, unless one of the two challenges is 0 or their fourth powers agree; at most 6|S|^(N-1) of the |S|^N challenge vectors resist.", "quantifier": "all rings with the stated laws, all transcripts, all numbers of instances, all lists of at least two base-field matrices, all witnesses agreeing with in-range ones under psi, all finite challenge sets", "why_tests_cant": "The tests run the honest prover; a prover that picks a message after the challenges never occurs in them, and the error is a count over all challenges.", "anchors": ["crates/latticefold-plus/src/rgchk.rs: absorb_evaluations", "crates/latticefold-plus/src/cm.rs: CmProof::verify"]}
{"id": "C118", "title": "Adaptive soundness and chains of folding steps in the random oracle model", "statement": "An adversary with Q questions to the random oracle may choose the accumulator, the instance, the transcript before the step and the proof after seeing all answers. At most Q max(d+1, tau, t, 2b) |S|^(Q-1) of the |S|^Q vectors of answers admit any accepted proof, with openings consistent with what was sent, for an input that does not hold. The same bound covers chains of any number of steps, each folding into the output of the one before, on one running transcript or on a fresh one for every step. With the shipped rings and parameters and 2^50 questions the probability is below 2^-128, whatever the number of steps.", "quantifier": "all rings with the stated laws, all CCS and parameters within the bounds, all query strategies, all instances, histories, proofs and chains of any length", "why_tests_cant": "A count over all answers of the oracle and all chains of proofs; tests run one honest chain.", "anchors": ["crates/latticefold/src/nifs.rs: NIFSVerifier::verify", "crates/latticefold/src/nifs.rs: absorb_public_input", "crates/latticefold/src/transcript/poseidon.rs"]}
{"id": "C119", "title": "Chains of folding steps in the random oracle model: only the last output is assumed", "statement": "The random oracle answers every question with a challenge and with the 2K-1 seeds of short challenges. For an adversary with Q questions, at most Q (max(d+1, tau, t, 2b)/|S| + 1/|S0|) of all vectors of answers admit a chain of accepted folding steps, of any length, on one running transcript or on fresh ones, whose last output holds although an input of some step does not. Nothing is assumed about theta, eta or the outputs in between; commitments are binding. With the shipped rings and parameters and 2^50 questions the fraction is below 2^-69.", "quantifier": "all rings with the stated laws, all CCS and parameters within the bounds, all query strategies, all accumulators, histories, proofs and chains of any length", "why_tests_cant": "A count over all answers of the oracle and all chains of proofs; a test checks one chain made by the honest prover.", "anchors": ["crates/latticefold/src/nifs.rs: NIFSVerifier::verify", "crates/latticefold/src/nifs/folding.rs: verify", "crates/latticefold/src/nifs/folding/utils.rs: get_rhos", "crates/latticefold/src/transcript/poseidon.rs: get_small_challenges"]}
{"id": "C120", "title": "The size checks in machine arithmetic", "statement": "In 64-bit arithmetic the size check of the verifier and the prover admits exactly the CCS with l < n whose number of rows is a power of two and at least (n-l-1)L, in debug and in release builds.", "quantifier": "all sizes n, l, m and L that fit a machine word, both kinds of build", "why_tests_cant": "The exceptions need a product beyond 2^64, or n <= l; tests use small well-formed systems.", "anchors": ["crates/latticefold/src/nifs.rs: sanity_check", "crates/latticefold/src/nifs/decomposition.rs: sanity_check", "crates/latticefold/src/nifs/folding.rs: sanity_check", "crates/latticefold/src/arith.rs: from_r1cs_padded"]}
{"id": "C121", "title": "A satisfied constraint system can be folded", "statement": "A constraint system made with the builder and satisfied by primary and auxiliary inputs, converted with to_r1cs and CCS::from_r1cs_padded, yields with x = primary and the remaining auxiliary inputs as witness a committed CCS instance that holds, and that the prover folds and the verifier accepts; conversely the instance holds only if the system is satisfied.", "quantifier": "all constraint systems, inputs, padding widths, rings and shipped parameters", "why_tests_cant": "Tests fold hand-made matrices whose third column block starts with the constant; no test goes from ConstraintSystem to a folded proof.", "anchors": ["crates/latticefold/src/arith/r1cs.rs: ConstraintSystem::{is_satisfied,to_r1cs}", "crates/latticefold/src/arith.rs: CCS::from_r1cs_padded", "crates/latticefold/src/arith.rs: Instance::get_z_vector", "crates/latticefold/src/nifs.rs"]}
{"id": "C122", "title": "Meaning of a system made with the builder", "statement": "A constraint system made by any sequence of builder calls has the inputs, auxiliary variables and constraints that were asked for; evaluating a linear combination gives the sum of its terms whatever their order, repeated variables adding up, and panics exactly when a variable has no value; is_satisfied and R1CS::check_relation report the first added constraint that does not hold, or success when all do; R1CS::constraint returns the terms as added.", "quantifier": "all sequences of calls of LinearCombination::{new,single_term,add_term,add_terms} and ConstraintSystem::{new,add_constraint} and assignments of ninputs and nauxs, all assignments of the variables, all commutative rings", "why_tests_cant": "Tests build three systems and evaluate them at one assignment each.", "anchors": ["crates/latticefold/src/arith/r1cs.rs: LinearCombination", "crates/latticefold/src/arith/r1cs.rs: ConstraintSystem", "crates/latticefold/src/arith/r1cs.rs: R1CS::constraint"]}
{"id": "C123", "title": "Named challenges are separated by name", "statement": "squeeze_challenges absorbs the big-endian value of the name modulo the characteristic and then draws n challenges, squeeze_rchallenges embeds them in the ring; different names give different absorbed elements. (False for long names: two names give the same challenges on every transcript exactly when their values agree modulo the characteristic.)", "quantifier": "all names, all transcripts, all numbers of challenges, all rings with an odd characteristic", "why_tests_cant": "The helpers have no tests; collisions are pairs of names that no test would choose.", "anchors": ["crates/latticefold-plus/src/transcript.rs: squeeze_challenges", "crates/latticefold-plus/src/transcript.rs: squeeze_rchallenges"]}
{"id": "C124", "title": "Generated systems and vectors belong together", "statement": "The generators of systems and vectors that the library offers for benches and examples give systems that their vectors satisfy: get_test_dummy_r1cs with get_test_dummy_z_split, also after CCS::from_r1cs_padded; get_test_dummy_r1cs_non_scalar and get_test_dummy_degree_three_ccs_non_scalar with any vector extending the given one; get_test_z, get_test_z_ntt and their degree three versions with the systems for x^3 + x + 5. The recorded sizes are those asked for. (False: l is 1 for any number of inputs, and s_prime of the degree three system is n, not log n.)", "quantifier": "all sizes, inputs, vectors and rings", "why_tests_cant": "Tests and benches use a few sizes and check nothing about the generated system but that a run succeeds; overflow and more rows than columns are never tried.", "anchors": ["crates/latticefold/src/arith/r1cs.rs: get_test_dummy_r1cs", "crates/latticefold/src/arith/r1cs.rs: get_test_dummy_r1cs_non_scalar", "crates/latticefold/src/arith/r1cs.rs: get_test_z_split", "crates/latticefold/src/arith/r1cs.rs: get_test_z_ntt_split", "crates/latticefold/src/arith/r1cs.rs: get_test_dummy_z_split_ntt", "crates/latticefold/src/arith/ccs.rs: get_test_dummy_degree_three_ccs_non_scalar"]}
