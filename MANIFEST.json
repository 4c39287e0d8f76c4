{
 "claims": [
  {
   "property": "C01",
   "status": "proved",
   "theorems": [
    "C01_ccs_check"
   ],
   "note": ""
  },
  {
   "property": "C02",
   "status": "proved",
   "theorems": [
    "C02_r1cs_to_ccs",
    "C02_roundtrip"
   ],
   "note": ""
  },
  {
   "property": "C03",
   "status": "partial",
   "theorems": [
    "C03_drops_constraints_refuted",
    "C02_r1cs_to_ccs"
   ],
   "note": "Property is false of the code; machine-checked counterexample. For W >= rows it holds (C02)."
  },
  {
   "property": "C04",
   "status": "proved",
   "theorems": [
    "C04_padding",
    "C04_small_W_refuted"
   ],
   "note": "Equality with the unpadded CCS needs W >= rows; for smaller W a counterexample is given."
  },
  {
   "property": "C05",
   "status": "proved",
   "theorems": [
    "C05_relax"
   ],
   "note": ""
  },
  {
   "property": "C06",
   "status": "proved",
   "theorems": [
    "C06_builder",
    "C06_swap",
    "C06_valid"
   ],
   "note": ""
  },
  {
   "property": "C07",
   "status": "proved",
   "theorems": [
    "C07_params_inj"
   ],
   "note": ""
  },
  {
   "property": "C08",
   "status": "proved",
   "theorems": [
    "C08_z_vector",
    "C08_linearize_same_z"
   ],
   "note": ""
  },
  {
   "property": "C09",
   "status": "proved",
   "theorems": [
    "C09_eq_table",
    "C09_eq_eval"
   ],
   "note": ""
  },
  {
   "property": "C10",
   "status": "proved",
   "theorems": [
    "C10_mle_eval",
    "C10_boolean_and_linear"
   ],
   "note": ""
  },
  {
   "property": "C11",
   "status": "proved",
   "theorems": [
    "C11_sumcheck_complete"
   ],
   "note": ""
  },
  {
   "property": "C12",
   "status": "proved",
   "theorems": [
    "C12_sumcheck_sound"
   ],
   "note": ""
  },
  {
   "property": "C13",
   "status": "proved",
   "theorems": [
    "C13_parallel_schedule"
   ],
   "note": ""
  },
  {
   "property": "C14",
   "status": "proved",
   "theorems": [
    "C14_interpolation"
   ],
   "note": ""
  },
  {
   "property": "C15",
   "status": "partial",
   "theorems": [
    "C15_never_panics_refuted",
    "C15_wrong_arity_refuted",
    "C15_short_proof_panics",
    "C15_no_panic_partial"
   ],
   "note": "Property is false of the code; machine-checked counterexample. Holds for proofs with at least n messages of degree+1 values."
  },
  {
   "property": "C16",
   "status": "partial",
   "theorems": [
    "C16_padded_proof_refuted",
    "C16_extra_messages_ignored"
   ],
   "note": "Property is false of the code; machine-checked counterexample. Extra messages are always ignored."
  },
  {
   "property": "C17",
   "status": "proved",
   "theorems": [
    "C17_commit_spec",
    "C17_commit_linear"
   ],
   "note": ""
  },
  {
   "property": "C18",
   "status": "partial",
   "theorems": [
    "C18_rand_collides_refuted",
    "C18_rand_value"
   ],
   "note": "Property is false of the code; machine-checked counterexample. All witnesses with equal coordinate sum collide, for every sampled value."
  },
  {
   "property": "C19",
   "status": "proved",
   "theorems": [
    "C19_module"
   ],
   "note": ""
  },
  {
   "property": "C20",
   "status": "proved",
   "theorems": [
    "C20_digits",
    "C20_ring_digits",
    "C20_witness"
   ],
   "note": ""
  },
  {
   "property": "C21",
   "status": "proved",
   "theorems": [
    "C21_constructors",
    "C21_fhat_entries"
   ],
   "note": ""
  },
  {
   "property": "C22",
   "status": "proved",
   "theorems": [
    "C22_decomposition_complete"
   ],
   "note": ""
  },
  {
   "property": "C23",
   "status": "proved",
   "theorems": [
    "C23_decomposition_sound",
    "C23_norm"
   ],
   "note": ""
  },
  {
   "property": "C24",
   "status": "partial",
   "theorems": [
    "C24_number_of_components_refuted",
    "C24_extra_component",
    "C24_single_component",
    "C23_decomposition_sound"
   ],
   "note": "Property is false of the code; machine-checked counterexample. Fewer and more than K components are accepted; for exactly K components all take part (C23)."
  },
  {
   "property": "C25",
   "status": "proved",
   "theorems": [
    "C25_linearization_complete",
    "C25_r1cs_in_order"
   ],
   "note": ""
  },
  {
   "property": "C26",
   "status": "partial",
   "theorems": [
    "C26_arbitrary_ccs_refuted",
    "C25_linearization_complete"
   ],
   "note": "Property is false of the code; machine-checked counterexample. Holds when the flattened multisets enumerate the matrices in order (C25)."
  },
  {
   "property": "C27",
   "status": "proved",
   "theorems": [
    "C27_linearization_sound"
   ],
   "note": ""
  },
  {
   "property": "C28",
   "status": "proved",
   "theorems": [
    "C28_range_polynomial",
    "C28_range_coefficients"
   ],
   "note": ""
  },
  {
   "property": "C29",
   "status": "proved",
   "theorems": [
    "C29_final_check"
   ],
   "note": ""
  },
  {
   "property": "C30",
   "status": "proved",
   "theorems": [
    "C30_folding_complete"
   ],
   "note": ""
  },
  {
   "property": "C31",
   "status": "proved",
   "theorems": [
    "C30_folding_complete",
    "C31_folded_output"
   ],
   "note": ""
  },
  {
   "property": "C32",
   "status": "proved",
   "theorems": [
    "C32_folded_norm",
    "C32_folded_norm_uniform",
    "C32_compute_f_0",
    "C32_fold_prove",
    "C32_shipped"
   ],
   "note": ""
  },
  {
   "property": "C33",
   "status": "proved",
   "theorems": [
    "C33_rot_sum",
    "C33_rot_sum_abort",
    "C33_rot_lin_combination"
   ],
   "note": ""
  },
  {
   "property": "C34",
   "status": "proved",
   "theorems": [
    "C34_nifs_complete"
   ],
   "note": ""
  },
  {
   "property": "C35",
   "status": "proved",
   "theorems": [
    "C35_chain",
    "C35_capacity"
   ],
   "note": "The range hypothesis folds_in_range is a property of ring, challenges and parameters; C35_capacity gives a sufficient inequality."
  },
  {
   "property": "C36",
   "status": "partial",
   "theorems": [
    "C36_incoming_instance_refuted",
    "C36_forgery",
    "C36_binds_partial"
   ],
   "note": "Property is false of the code; machine-checked counterexample. Holds when both decomposition proofs have exactly K components (C36_binds_partial)."
  },
  {
   "property": "C37",
   "status": "partial",
   "theorems": [
    "C37_absorption_refuted",
    "C37_same_shape_partial"
   ],
   "note": "Property is false of the code; machine-checked counterexample. Holds for instances of equal shape."
  },
  {
   "property": "C38",
   "status": "proved",
   "theorems": [
    "C38_sanity_check"
   ],
   "note": ""
  },
  {
   "property": "C39",
   "status": "partial",
   "theorems": [
    "C39_verifier_panics_refuted",
    "C39_short_theta_refuted",
    "C39_no_panic_partial"
   ],
   "note": "Property is false of the code; machine-checked counterexample. Holds for proofs of the shape nifs_shape."
  },
  {
   "property": "C40",
   "status": "proved",
   "theorems": [
    "C40_transcripts_agree"
   ],
   "note": ""
  },
  {
   "property": "C41",
   "status": "proved",
   "theorems": [
    "C41_decoders",
    "C41_get_short_challenge"
   ],
   "note": ""
  },
  {
   "property": "C42",
   "status": "partial",
   "theorems": [
    "C42_babybear_refuted",
    "C42_babybear_tail",
    "C42_onto_partial"
   ],
   "note": "Property is false of the code; machine-checked counterexample. False for BabyBear; holds for Goldilocks, Frog and Stark."
  },
  {
   "property": "C43",
   "status": "proved",
   "theorems": [
    "C43_tensor",
    "C43_tensor_product",
    "C43_tensor_product_length",
    "C43_tensor_eq"
   ],
   "note": ""
  },
  {
   "property": "C44",
   "status": "proved",
   "theorems": [
    "C44_set_check_complete"
   ],
   "note": ""
  },
  {
   "property": "C45",
   "status": "partial",
   "theorems": [
    "C45_one_matrix_with_vectors_refuted",
    "C44_set_check_complete"
   ],
   "note": "Property is false of the code; machine-checked counterexample. With one matrix and a vector there is no batching challenge: the prover then drops the vectors and the verifier does not. Holds for two or more matrices, or no vectors (C44)."
  },
  {
   "property": "C46",
   "status": "proved",
   "theorems": [
    "C46_monomials_pass",
    "C46_only_monomials_pass"
   ],
   "note": ""
  },
  {
   "property": "C47",
   "status": "proved",
   "theorems": [
    "C47_range_check_complete"
   ],
   "note": ""
  },
  {
   "property": "C48",
   "status": "proved",
   "theorems": [
    "C48_cm_complete"
   ],
   "note": ""
  },
  {
   "property": "C49",
   "status": "proved",
   "theorems": [
    "C49_decompose"
   ],
   "note": ""
  },
  {
   "property": "C50",
   "status": "proved",
   "theorems": [
    "C50_linearize"
   ],
   "note": ""
  },
  {
   "property": "C51",
   "status": "proved",
   "theorems": [
    "C51_step",
    "C51_folded_norm",
    "C51_run",
    "C51_run_large_base",
    "C51_small_base_refuted"
   ],
   "note": "Needs a decomposition base large enough for the folded witness (good_params or C51_run_large_base); for a smaller base the honest prover is rejected (C51_small_base_refuted). mono_isometry, PLaws are satisfied by F_p[X]/(X^d+1) (PolyInst.v)."
  },
  {
   "property": "C52",
   "status": "partial",
   "theorems": [
    "C52_commitments_refuted",
    "C52_commitments_unbound",
    "C52_cm_commitments_unbound"
   ],
   "note": "Property is false of the code; machine-checked counterexample. Any witness commitments can be substituted in any accepted proof."
  },
  {
   "property": "C53",
   "status": "partial",
   "theorems": [
    "C53_no_witness_refuted",
    "C53_forgery"
   ],
   "note": "Property is false of the code; machine-checked counterexample. A proof of zeros is accepted on every transcript for every claimed instance."
  },
  {
   "property": "C54",
   "status": "partial",
   "theorems": [
    "C54_point_refuted",
    "C54_linearization_point"
   ],
   "note": "Property is false of the code; machine-checked counterexample. "
  },
  {
   "property": "C55",
   "status": "partial",
   "theorems": [
    "C55_split_exact_refuted",
    "C55_split_panics",
    "C55_split_partial"
   ],
   "note": "Property is false of the code; machine-checked counterexample. The assertion is strict: a target of exactly the data length panics. Holds for longer targets (C55_split_partial)."
  },
  {
   "property": "C56",
   "status": "partial",
   "theorems": [
    "C56_constant_refuted",
    "C56_overflow_refuted",
    "C56_range_partial",
    "C56_injective",
    "C56_degenerate"
   ],
   "note": "Property is false of the code; machine-checked counterexample. Zero challenge when lambda < d, panic when lambda/d >= 64. In between: range (C56_range_partial) and injectivity in the low bits (C56_injective)."
  },
  {
   "property": "C57",
   "status": "proved",
   "theorems": [
    "C57_decomposed_square",
    "C57_instance"
   ],
   "note": ""
  },
  {
   "property": "C58",
   "status": "partial",
   "theorems": [
    "C58_get_last",
    "C58_total_len_partial",
    "C58_total_len_refuted"
   ],
   "note": "Property is false of the code; machine-checked counterexample. get is right for all call sequences; total_len is right when names are distinct."
  },
  {
   "property": "C59",
   "status": "partial",
   "theorems": [
    "C59_norm_of_last_witness_refuted",
    "C59_antisymmetric_accepted",
    "C60_folding_sound"
   ],
   "note": "Property is false of the code; machine-checked counterexample. Holds for all witnesses but the last, and for all of them when tau = 1 (C60)."
  },
  {
   "property": "C60",
   "status": "proved",
   "theorems": [
    "C60_folding_sound"
   ],
   "note": ""
  },
  {
   "property": "C61",
   "status": "proved",
   "theorems": [
    "C61_nifs_sound"
   ],
   "note": ""
  },
  {
   "property": "C62",
   "status": "proved",
   "theorems": [
    "C62_set_check_sound",
    "C62_challenges"
   ],
   "note": ""
  },
  {
   "property": "C63",
   "status": "partial",
   "theorems": [
    "C63_ring_matrix_refuted",
    "C47_range_check_complete"
   ],
   "note": "Property is false of the code; machine-checked counterexample. Holds for matrices with base-field entries (C47)."
  },
  {
   "property": "C64",
   "status": "partial",
   "theorems": [
    "C64_base_refuted",
    "C47_range_check_complete"
   ],
   "note": "Property is false of the code; machine-checked counterexample. Holds for b = d/2 (C47)."
  },
  {
   "property": "C65",
   "status": "partial",
   "theorems": [
    "C65_single_digit_refuted",
    "C47_range_check_complete"
   ],
   "note": "Property is false of the code; machine-checked counterexample. Holds for at least two digit matrices in total (C47)."
  },
  {
   "property": "C66",
   "status": "partial",
   "theorems": [
    "C66_instance_commitment_refuted",
    "C66_commitments_shifted",
    "C48_cm_complete"
   ],
   "note": "Property is false of the code; machine-checked counterexample. Every shift of two commitments of h that keeps their sum is accepted on every transcript."
  },
  {
   "property": "C67",
   "status": "partial",
   "theorems": [
    "C67_folded_instance_refuted",
    "C67_folded_instance_unbound"
   ],
   "note": "Property is false of the code; machine-checked counterexample. Any folded instance can be substituted in any accepted proof."
  },
  {
   "property": "C68",
   "status": "partial",
   "theorems": [
    "C68_claims_refuted",
    "C68_claims_unused"
   ],
   "note": "Property is false of the code; machine-checked counterexample. The prover's output does not depend on the claims."
  },
  {
   "property": "C69",
   "status": "proved",
   "theorems": [
    "C69_run",
    "C69_estimate_bound"
   ],
   "note": "Exact arithmetic; the rounding of f64 in estimate_bound is not modelled."
  },
  {
   "property": "C70",
   "status": "proved",
   "theorems": [
    "C70_schedule",
    "C70_challenge_binds"
   ],
   "note": ""
  },
  {
   "property": "C71",
   "status": "proved",
   "theorems": [
    "C71_schedule",
    "C71_rho_binds"
   ],
   "note": ""
  },
  {
   "property": "C72",
   "status": "partial",
   "theorems": [
    "C72_commitments_absorbed_refuted",
    "C72_schedule",
    "C72_messages_bound"
   ],
   "note": "Property is false of the code; machine-checked counterexample. The messages of all sumchecks, the evaluations except v and b, and the commitments to h are bound (C72_messages_bound); commitments to the witnesses, points and the folded instance are not."
  },
  {
   "property": "C73",
   "status": "proved",
   "theorems": [
    "C73_folding_extract",
    "C73_nifs_knowledge"
   ],
   "note": "Forking is on the folding challenges; that differences of short challenges are invertible is a hypothesis (special), discharged for the four rings in C82."
  },
  {
   "property": "C74",
   "status": "proved",
   "theorems": [
    "C74_range_check_sound",
    "C74_range_bounds"
   ],
   "note": "The openings are assumed to be those of the tables: nothing in rgchk.rs ties them to the commitments (see C75, C76)."
  },
  {
   "property": "C75",
   "status": "partial",
   "theorems": [
    "C75_range_refuted",
    "C75_witness_unranged"
   ],
   "note": "Property is false of the code; machine-checked counterexample. Accepted proofs exist for every witness with the images of an in-range one; with v equal to the true evaluations the bound holds (C74)."
  },
  {
   "property": "C76",
   "status": "partial",
   "theorems": [
    "C76_tau_refuted",
    "C76_tau_unranged"
   ],
   "note": "Property is false of the code; machine-checked counterexample. With out.b equal to the true openings the bound holds (C74)."
  },
  {
   "property": "C77",
   "status": "proved",
   "theorems": [
    "C77_linearization_sound"
   ],
   "note": "The values va, vb, vc are assumed to be evaluations of one vector f: nothing in r1cs.rs ties them to the commitment."
  },
  {
   "property": "C78",
   "status": "proved",
   "theorems": [
    "C78_cm_sound"
   ],
   "note": "The final evaluations are assumed to be those of the vectors; the stored point is not tied to the sumcheck of the set check (LF+ finding 5)."
  },
  {
   "property": "C79",
   "status": "proved",
   "theorems": [
    "C79_compared_sound"
   ],
   "note": "The three comparisons are a hypothesis (compared): the code does not make them (C75, C76, LF+ finding 5)."
  },
  {
   "property": "C80",
   "status": "proved",
   "theorems": [
    "C80_strong_sampling"
   ],
   "note": "Units are shown by a lower bound on the coefficients of elements vanishing in a slot; certificates are checked by computation."
  },
  {
   "property": "C81",
   "status": "proved",
   "theorems": [
    "C81_ring_laws"
   ],
   "note": "The slot order and the bases of the extension fields are chosen here and may differ from those of stark-rings, which is not in the sandbox."
  },
  {
   "property": "C82",
   "status": "proved",
   "theorems": [
    "C82_folding_extract",
    "C82_nifs_knowledge"
   ],
   "note": "Discharges the hypothesis special of C73 for the four rings."
  },
  {
   "property": "C83",
   "status": "partial",
   "theorems": [
    "C83_parameters",
    "C83_step_complete",
    "C83_chain",
    "C83_capacity_refuted"
   ],
   "note": "Property is false of the code; machine-checked counterexample. True of the wide parameter sets (C83_chain); of the tight ones only for one fold of fresh instances (C83_step_complete). Tight and wide sets together are all shipped sets that cover their prime."
  },
  {
   "property": "C84",
   "status": "partial",
   "theorems": [
    "C84_rejected",
    "C84_second_fold_refuted",
    "C84_fresh_folds_refuted"
   ],
   "note": "Property is false of the code; machine-checked counterexample. C84_rejected bounds the exceptions; the two refutations run two honest folds on the shipped parameters."
  },
  {
   "property": "C85",
   "status": "partial",
   "theorems": [
    "C85_bijection",
    "C85_mds",
    "C85_babybear_mds_refuted"
   ],
   "note": "Property is false of the code; machine-checked counterexample. Bijection proved for all four rings; the matrix is MDS for Goldilocks and Stark, not for BabyBear, which uses the Goldilocks integers modulo another prime. For Frog invertibility is proved, MDS is open."
  },
  {
   "property": "C86",
   "status": "partial",
   "theorems": [
    "C86_sponge",
    "C86_no_panic",
    "C86_binding",
    "C86_encoding",
    "C86_model",
    "C86_zero_refuted"
   ],
   "note": "Property is false of the code; machine-checked counterexample. Binding holds of histories with the same sequence of operations (C86_binding); in the Frog ring a zero element absorbed directly after a challenge leaves no trace, so histories of different length are not separated."
  },
  {
   "property": "C87",
   "status": "proved",
   "theorems": [
    "C87_bytes",
    "C87_distribution",
    "C87_short",
    "C87_chain"
   ],
   "note": "The sponge is external code, modelled as published; Examples14.v reproduces the test vectors of poseidon.rs."
  },
  {
   "property": "C88",
   "status": "proved",
   "theorems": [
    "C88_sumcheck_error"
   ],
   "note": "Interactive protocol: challenges are read off a tape of coins, messages are functions of the coins before them. The bound is attained (ex_C88)."
  },
  {
   "property": "C89",
   "status": "proved",
   "theorems": [
    "C89_nifs_error"
   ],
   "note": "Openings (opn, w0) are fixed before the coins, i.e. commitments are treated as binding; that theta and eta are evaluations of the openings is what C73/C82 extract. A false instance passing on some coins is exhibited (ex_C89)."
  },
  {
   "property": "C90",
   "status": "proved",
   "theorems": [
    "C90_challenges",
    "C90_nifs_error",
    "C90_nifs_ro",
    "C90_shipped"
   ],
   "note": "Instances of C89 and C92 for the four rings; challenges independent and uniform, i.e. the sponge is idealised."
  },
  {
   "property": "C91",
   "status": "proved",
   "theorems": [
    "C91_sumcheck_ro"
   ],
   "note": "The oracle answers on the whole history; the event counted is acceptance after all questions of the verifier were asked (an adversary can always ask them last)."
  },
  {
   "property": "C92",
   "status": "proved",
   "theorems": [
    "C92_nifs_ro"
   ],
   "note": "Short challenges are an arbitrary function of the history; they do not enter the bound. Commitments are treated as binding (opn, w0 fixed)."
  },
  {
   "property": "C93",
   "status": "partial",
   "theorems": [
    "C93_estimate_bound",
    "C93_rounding_refuted"
   ],
   "note": "Property is false of the code; machine-checked counterexample. Exact whenever a^2 + 4ac < 2^50 (C93_estimate_bound), which includes all parameters in the repository; one too small for larger ones."
  },
  {
   "property": "C94",
   "status": "partial",
   "theorems": [
    "C94_accepted_partial",
    "C94_large_base",
    "C94_large_base_refuted",
    "C94_saturation_refuted"
   ],
   "note": "Property is false of the code; machine-checked counterexample. IEEE arithmetic is Flocq's; powf and ln are arbitrary functions. C94_accepted_partial states soundness when the computed bound is below 2^64."
  },
  {
   "property": "C95",
   "status": "proved",
   "theorems": [
    "C95_tags"
   ],
   "note": "The tag beta_s is used both by the linearization and by the folding step."
  },
  {
   "property": "C96",
   "status": "proved",
   "theorems": [
    "C96_comb_fn",
    "C96_rand_poly"
   ],
   "note": "The draws of the random generator are an argument."
  },
  {
   "property": "C97",
   "status": "partial",
   "theorems": [
    "C97_within_bound",
    "C97_norm_refuted"
   ],
   "note": "Property is false of the code; machine-checked counterexample. C97_within_bound says what is compared instead."
  },
  {
   "property": "C98",
   "status": "proved",
   "theorems": [
    "C98_decompose_commit"
   ],
   "note": ""
  },
  {
   "property": "C99",
   "status": "proved",
   "theorems": [
    "C99_set_error",
    "C99_set_ro"
   ],
   "note": "The columns are fixed before the coins: the verifier draws its first challenges without absorbing anything about them."
  },
  {
   "property": "C100",
   "status": "proved",
   "theorems": [
    "C100_range_error",
    "C100_range_ro"
   ],
   "note": "True openings at the point of the sumcheck are a hypothesis (range_fooled); C75 and C76 show what happens when the evaluations are not tied together."
  },
  {
   "property": "C101",
   "status": "partial",
   "theorems": [
    "C101_lin_error",
    "C101_lin_ro",
    "C101_guess",
    "C101_frog_guess",
    "C101_128_bits_refuted"
   ],
   "note": "Property is false of the code; machine-checked counterexample. The upper bounds hold (C101_lin_error, C101_lin_ro); in the Frog ring, where a challenge is an element of the 64-bit prime field, every false statement is accepted with probability above 2^-64 (C101_frog_guess)."
  },
  {
   "property": "C102",
   "status": "proved",
   "theorems": [
    "C102_extract_sum",
    "C102_extract_honest",
    "C102_extract_panics",
    "C102_evaluate",
    "C102_bits",
    "C102_one",
    "C102_sets"
   ],
   "note": ""
  },
  {
   "property": "C103",
   "status": "proved",
   "theorems": [
    "C103_binds"
   ],
   "note": "The disjunct `collide` is a collision of the capacity part of the sponge; that none is found is a cryptographic assumption."
  },
  {
   "property": "C104",
   "status": "proved",
   "theorems": [
    "C104_size",
    "C104_total",
    "C104_same_shape"
   ],
   "note": ""
  },
  {
   "property": "C105",
   "status": "proved",
   "theorems": [
    "C105_folding",
    "C105_nifs",
    "C105_shipped",
    "C105_bytes"
   ],
   "note": "Counting form of rewinding: which vectors the prover is run on, and its running time, are not modelled."
  },
  {
   "property": "C106",
   "status": "partial",
   "theorems": [
    "C106_admitted_refuted",
    "C106_needs",
    "C106_folding_needs"
   ],
   "note": "Property is false of the code; machine-checked counterexample. Necessary: at least two rows and next_power_of_two of the length of the decomposed witness equal to the number of rows; sufficient: C25, C35."
  },
  {
   "property": "C107",
   "status": "partial",
   "theorems": [
    "C107_length_refuted",
    "C107_range_needs",
    "C107_cm_needs",
    "C107_needs"
   ],
   "note": "Property is false of the code; machine-checked counterexample. The necessary conditions hold for all inputs; they are the size conditions of the completeness theorem C48."
  },
  {
   "property": "C108",
   "status": "proved",
   "theorems": [
    "C108_accepts",
    "C108_decomp_sound",
    "C108_step_sound"
   ],
   "note": "Surplus entries of the longer of two parts are ignored (stated in C108_accepts)."
  },
  {
   "property": "C109",
   "status": "proved",
   "theorems": [
    "C109_folding",
    "C109_binding",
    "C109_nifs",
    "C109_error"
   ],
   "note": "theta and eta need not be assumed correct any more, as C89 does; the bound of C109_folding is attained (Examples22)."
  },
  {
   "property": "C110",
   "status": "proved",
   "theorems": [
    "C110_chain_sound",
    "C110_chain_verifies",
    "C110_honest_chain"
   ],
   "note": "The bad events are those bounded by C89, C92 and C109 for one step."
  },
  {
   "property": "C111",
   "status": "partial",
   "theorems": [
    "C111_parts_refuted",
    "C111_sum_hides",
    "C111_no_opening"
   ],
   "note": "Property is false of the code; machine-checked counterexample. For all inputs: an accepted proof whose folded instance is true while two of its parts are off by any d and -d."
  },
  {
   "property": "C112",
   "status": "proved",
   "theorems": [
    "C112_chain",
    "C112_error",
    "C112_shipped"
   ],
   "note": "Openings are fixed in advance by the commitments (binding as a hypothesis); the transcript's challenges are counted as independent uniform draws."
  },
  {
   "property": "C113",
   "status": "proved",
   "theorems": [
    "C113_poly_lengths",
    "C113_poly_lengths_ok",
    "C113_fold_prove",
    "C113_empty_x",
    "C113_mle_add",
    "C113_mle_add_ok"
   ],
   "note": ""
  },
  {
   "property": "C114",
   "status": "partial",
   "theorems": [
    "C114_weights_refuted",
    "C114_zero_refuted",
    "C114_fits",
    "C114_panics",
    "C114_release_ignores",
    "C114_minimal",
    "C114_shipped",
    "C114_two_k"
   ],
   "note": "Property is false of the code; machine-checked counterexample. Exact condition: b^(K-1) < 2^128 and K >= 1; all shipped parameters meet it."
  },
  {
   "property": "C115",
   "status": "proved",
   "theorems": [
    "C115_roundtrip",
    "C115_canonical",
    "C115_injective",
    "C115_verify",
    "C115_size",
    "C115_honest",
    "C115_element"
   ],
   "note": "The derive macros write the fields in order; the byte formats of ark-serialize and ark-ff (little-endian field elements of as many bytes as the modulus needs, eight-byte lengths, arrays without length) are assumptions, see DESIGN.md."
  },
  {
   "property": "C116",
   "status": "proved",
   "theorems": [
    "C116_cm_error",
    "C116_bits"
   ],
   "note": "Interactive public-coin setting: the field challenges are the coins, the bytes of the short challenges an arbitrary fixed tape.  The evaluations at the two final points are assumed to be those of the vectors (they are checked by the later decomposition and opening)."
  },
  {
   "property": "C117",
   "status": "partial",
   "theorems": [
    "C117_order_refuted",
    "C117_late_b",
    "C117_late_count"
   ],
   "note": "Property is false of the code; machine-checked counterexample. eval.b is not absorbed before the batching challenges; late_prove chooses it afterwards.  The refutation holds on a witness with a coefficient 100 where 4 is the bound; the other two theorems give the attack for every transcript and every setting, and the share of challenges that resist.  C78, C79 and C116 hold because they speak of provers that fix eval.b before the challenges."
  },
  {
   "property": "C118",
   "status": "proved",
   "theorems": [
    "C118_adaptive",
    "C118_chain",
    "C118_shipped"
   ],
   "note": "The transcript is the random oracle of RandomOracle.v (C91, C92); openings of commitments are a function of the commitment (binding), and opened evaluations are consistent with it.  Short challenges are an arbitrary function of the history."
  },
  {
   "property": "C119",
   "status": "proved",
   "theorems": [
    "C119_chain",
    "C119_shipped"
   ],
   "note": "Random oracle as in C118, whose answers also hold the seeds of the short challenges; seeds decode to elements with invertible differences (proved for the shipped rings, C80).  Openings of commitments are functions of the commitment (binding)."
  },
  {
   "property": "C120",
   "status": "partial",
   "theorems": [
    "C120_release_refuted",
    "C120_debug",
    "C120_agrees",
    "C120_underflow"
   ],
   "note": "Property is false of the code; machine-checked counterexample. True in debug builds for all words (C120_debug).  In release builds the product wraps: for every L > 1 a CCS whose witness is far too long is admitted (C120_release_refuted); below 2^63 both builds agree with the model (C120_agrees), and n <= l is rejected (C120_underflow)."
  },
  {
   "property": "C121",
   "status": "partial",
   "theorems": [
    "C121_one_refuted",
    "C121_instance",
    "C121_folded"
   ],
   "note": "Property is false of the code; machine-checked counterexample. is_satisfied takes primary ++ aux, get_z_vector makes x ++ [1] ++ w: the first auxiliary variable must be the constant 1, which neither is_valid nor to_r1cs checks (VariableMap::one is not consulted).  With that the two are equivalent for all systems (C121_instance) and the instance is folded (C121_folded)."
  },
  {
   "property": "C122",
   "status": "proved",
   "theorems": [
    "C122_evaluate",
    "C122_order",
    "C122_fields",
    "C122_satisfied",
    "C122_rows"
   ],
   "note": "Calls are described by a syntax with its own meaning (Properties38.v: mean, uses, constraints, holds).  C122_satisfied assumes inputs of the declared lengths and constraints that use declared variables only, which by C122_fields is what is_valid tests.  The conversion of coefficients with Into<R> is not modelled."
  },
  {
   "property": "C123",
   "status": "partial",
   "theorems": [
    "C123_named",
    "C123_same",
    "C123_short",
    "C123_collision_refuted"
   ],
   "note": "Property is false of the code; machine-checked counterexample. In each of the four characteristics there are two names of small letters with the same challenges on every transcript.  Proved: what is absorbed and drawn, the exact condition for two names to coincide, and separation of names no longer than the characteristic that do not start with a zero byte."
  },
  {
   "property": "C124",
   "status": "partial",
   "theorems": [
    "C124_dummy",
    "C124_dummy_satisfied",
    "C124_non_scalar",
    "C124_degree_three",
    "C124_sizes",
    "C124_small_sizes",
    "C124_vitalik",
    "C124_cubic",
    "C124_cubic_slots",
    "C124_slots",
    "C124_inputs_refuted",
    "C124_no_inputs_refuted",
    "C124_s_prime_refuted"
   ],
   "note": "Property is false of the code; machine-checked counterexample. Two recorded sizes are wrong: l is the constant 1 (C124_inputs_refuted; C124_no_inputs_refuted for a consequence) and s_prime is n (C124_s_prime_refuted).  Proved: the systems are satisfied by the vectors made for them, exactly which vectors satisfy the scalar system, and when the functions panic."
  }
 ]
}