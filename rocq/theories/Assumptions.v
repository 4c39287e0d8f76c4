(** Axioms used by each final theorem (all should print "Closed under the global context"). *)
From Verif Require Import Properties1 Examples1 Properties2 Examples2 Properties3 Examples3 Properties4 Examples4 Properties5 Examples5 Properties6 Examples6 Properties7 Examples7 Properties8 Examples8 Properties9 Examples9 Properties10 Examples10 Properties11 Examples11 Properties12 Examples12 Properties13 Properties14 Examples13 Properties15 Examples14 Properties16 Examples15 Properties17 Examples16 Properties18 Examples17 Properties19 Examples18 Properties20 Examples19 Properties21 Examples20 Properties22 Properties23 Properties24 Examples21 Properties25 Examples22 Properties26 Examples23 Properties27 Examples24 Properties28 Examples25 Properties29 Properties30 Examples26 Properties31 Examples27 Properties32 Examples28 Properties33 Examples29 Properties34 Examples30 Properties35 Examples31 Properties36 Examples32 Properties37 Examples33 Properties38 Examples34 Properties39 Examples35 Properties40 Examples36 Properties41 Examples37.
Print Assumptions C01_ccs_check.
Print Assumptions C02_r1cs_to_ccs.
Print Assumptions C02_roundtrip.
Print Assumptions C03_drops_constraints_refuted.
Print Assumptions C04_padding.
Print Assumptions C04_small_W_refuted.
Print Assumptions C05_relax.
Print Assumptions C06_builder.
Print Assumptions C06_swap.
Print Assumptions C06_valid.
Print Assumptions C07_params_inj.
Print Assumptions C08_z_vector.
Print Assumptions C08_linearize_same_z.
Print Assumptions C09_eq_table.
Print Assumptions C09_eq_eval.
Print Assumptions C10_mle_eval.
Print Assumptions C10_boolean_and_linear.
Print Assumptions C11_sumcheck_complete.
Print Assumptions C12_sumcheck_sound.
Print Assumptions C13_parallel_schedule.
Print Assumptions C14_interpolation.
Print Assumptions C15_never_panics_refuted.
Print Assumptions C15_wrong_arity_refuted.
Print Assumptions C15_short_proof_panics.
Print Assumptions C15_no_panic_partial.
Print Assumptions C16_padded_proof_refuted.
Print Assumptions C16_extra_messages_ignored.
Print Assumptions C17_commit_spec.
Print Assumptions C17_commit_linear.
Print Assumptions C18_rand_collides_refuted.
Print Assumptions C18_rand_value.
Print Assumptions C19_module.
Print Assumptions C20_digits.
Print Assumptions C20_ring_digits.
Print Assumptions C20_witness.
Print Assumptions C21_constructors.
Print Assumptions C21_fhat_entries.
Print Assumptions C22_decomposition_complete.
Print Assumptions C23_decomposition_sound.
Print Assumptions C23_norm.
Print Assumptions C24_number_of_components_refuted.
Print Assumptions C24_extra_component.
Print Assumptions C24_single_component.
Print Assumptions C25_linearization_complete.
Print Assumptions C25_r1cs_in_order.
Print Assumptions C26_arbitrary_ccs_refuted.
Print Assumptions C27_linearization_sound.
Print Assumptions C28_range_polynomial.
Print Assumptions C28_range_coefficients.
Print Assumptions C29_final_check.
Print Assumptions C30_folding_complete.
Print Assumptions C31_folded_output.
Print Assumptions C32_folded_norm.
Print Assumptions C32_folded_norm_uniform.
Print Assumptions C32_compute_f_0.
Print Assumptions C32_fold_prove.
Print Assumptions C32_shipped.
Print Assumptions C33_rot_sum.
Print Assumptions C33_rot_sum_abort.
Print Assumptions C33_rot_lin_combination.
Print Assumptions C34_nifs_complete.
Print Assumptions C35_chain.
Print Assumptions C35_capacity.
Print Assumptions C36_incoming_instance_refuted.
Print Assumptions C36_forgery.
Print Assumptions C36_binds_partial.
Print Assumptions C37_absorption_refuted.
Print Assumptions C37_same_shape_partial.
Print Assumptions C38_sanity_check.
Print Assumptions C39_verifier_panics_refuted.
Print Assumptions C39_short_theta_refuted.
Print Assumptions C39_no_panic_partial.
Print Assumptions C40_transcripts_agree.
Print Assumptions C41_decoders.
Print Assumptions C41_get_short_challenge.
Print Assumptions C42_babybear_refuted.
Print Assumptions C42_babybear_tail.
Print Assumptions C42_onto_partial.
Print Assumptions C43_tensor.
Print Assumptions C43_tensor_product.
Print Assumptions C43_tensor_product_length.
Print Assumptions C43_tensor_eq.
Print Assumptions C44_set_check_complete.
Print Assumptions C45_one_matrix_with_vectors_refuted.
Print Assumptions C46_monomials_pass.
Print Assumptions C46_only_monomials_pass.
Print Assumptions C47_range_check_complete.
Print Assumptions C48_cm_complete.
Print Assumptions C49_decompose.
Print Assumptions C50_linearize.
Print Assumptions C51_step.
Print Assumptions C51_folded_norm.
Print Assumptions C51_run.
Print Assumptions C51_run_large_base.
Print Assumptions C51_small_base_refuted.
Print Assumptions C52_commitments_refuted.
Print Assumptions C52_commitments_unbound.
Print Assumptions C52_cm_commitments_unbound.
Print Assumptions C53_no_witness_refuted.
Print Assumptions C53_forgery.
Print Assumptions C54_point_refuted.
Print Assumptions C54_linearization_point.
Print Assumptions C55_split_exact_refuted.
Print Assumptions C55_split_panics.
Print Assumptions C55_split_partial.
Print Assumptions C56_constant_refuted.
Print Assumptions C56_overflow_refuted.
Print Assumptions C56_range_partial.
Print Assumptions C56_injective.
Print Assumptions C56_degenerate.
Print Assumptions C57_decomposed_square.
Print Assumptions C57_instance.
Print Assumptions C58_get_last.
Print Assumptions C58_total_len_partial.
Print Assumptions C58_total_len_refuted.
Print Assumptions C59_norm_of_last_witness_refuted.
Print Assumptions C59_antisymmetric_accepted.
Print Assumptions C60_folding_sound.
Print Assumptions C61_nifs_sound.
Print Assumptions C62_set_check_sound.
Print Assumptions C62_challenges.
Print Assumptions C63_ring_matrix_refuted.
Print Assumptions C64_base_refuted.
Print Assumptions C65_single_digit_refuted.
Print Assumptions C66_instance_commitment_refuted.
Print Assumptions C66_commitments_shifted.
Print Assumptions C67_folded_instance_refuted.
Print Assumptions C67_folded_instance_unbound.
Print Assumptions C68_claims_refuted.
Print Assumptions C68_claims_unused.
Print Assumptions C69_run.
Print Assumptions C69_estimate_bound.
Print Assumptions C70_schedule.
Print Assumptions C70_challenge_binds.
Print Assumptions C71_schedule.
Print Assumptions C71_rho_binds.
Print Assumptions C72_commitments_absorbed_refuted.
Print Assumptions C72_schedule.
Print Assumptions C72_messages_bound.
Print Assumptions C73_folding_extract.
Print Assumptions C73_nifs_knowledge.
Print Assumptions C74_range_check_sound.
Print Assumptions C74_range_bounds.
Print Assumptions C75_range_refuted.
Print Assumptions C75_witness_unranged.
Print Assumptions C76_tau_refuted.
Print Assumptions C76_tau_unranged.
Print Assumptions C77_linearization_sound.
Print Assumptions C78_cm_sound.
Print Assumptions C79_compared_sound.
Print Assumptions C80_strong_sampling.
Print Assumptions C81_ring_laws.
Print Assumptions C82_folding_extract.
Print Assumptions C82_nifs_knowledge.
Print Assumptions C83_parameters.
Print Assumptions C83_step_complete.
Print Assumptions C83_chain.
Print Assumptions C83_capacity_refuted.
Print Assumptions C84_rejected.
Print Assumptions C84_second_fold_refuted.
Print Assumptions C84_fresh_folds_refuted.
Print Assumptions C85_bijection.
Print Assumptions C85_mds.
Print Assumptions C85_babybear_mds_refuted.
Print Assumptions C86_sponge.
Print Assumptions C86_no_panic.
Print Assumptions C86_binding.
Print Assumptions C86_encoding.
Print Assumptions C86_model.
Print Assumptions C86_zero_refuted.
Print Assumptions C87_bytes.
Print Assumptions C87_distribution.
Print Assumptions C87_short.
Print Assumptions C87_chain.
Print Assumptions C88_sumcheck_error.
Print Assumptions C89_nifs_error.
Print Assumptions C90_challenges.
Print Assumptions C90_nifs_error.
Print Assumptions C90_nifs_ro.
Print Assumptions C90_shipped.
Print Assumptions C91_sumcheck_ro.
Print Assumptions C92_nifs_ro.
Print Assumptions C93_estimate_bound.
Print Assumptions C93_rounding_refuted.
Print Assumptions C94_accepted_partial.
Print Assumptions C94_large_base.
Print Assumptions C94_large_base_refuted.
Print Assumptions C94_saturation_refuted.
Print Assumptions C95_tags.
Print Assumptions C96_comb_fn.
Print Assumptions C96_rand_poly.
Print Assumptions C97_within_bound.
Print Assumptions C97_norm_refuted.
Print Assumptions C98_decompose_commit.
Print Assumptions C99_set_error.
Print Assumptions C99_set_ro.
Print Assumptions C100_range_error.
Print Assumptions C100_range_ro.
Print Assumptions C101_lin_error.
Print Assumptions C101_lin_ro.
Print Assumptions C101_guess.
Print Assumptions C101_frog_guess.
Print Assumptions C101_128_bits_refuted.
Print Assumptions C102_extract_sum.
Print Assumptions C102_extract_honest.
Print Assumptions C102_extract_panics.
Print Assumptions C102_evaluate.
Print Assumptions C102_bits.
Print Assumptions C102_one.
Print Assumptions C102_sets.
Print Assumptions C103_binds.
Print Assumptions C104_size.
Print Assumptions C104_total.
Print Assumptions C104_same_shape.
Print Assumptions C105_folding.
Print Assumptions C105_nifs.
Print Assumptions C105_shipped.
Print Assumptions C105_bytes.
Print Assumptions C106_admitted_refuted.
Print Assumptions C106_needs.
Print Assumptions C106_folding_needs.
Print Assumptions C107_length_refuted.
Print Assumptions C107_range_needs.
Print Assumptions C107_cm_needs.
Print Assumptions C107_needs.
Print Assumptions C108_accepts.
Print Assumptions C108_decomp_sound.
Print Assumptions C108_step_sound.
Print Assumptions C109_folding.
Print Assumptions C109_binding.
Print Assumptions C109_nifs.
Print Assumptions C109_error.
Print Assumptions C110_chain_sound.
Print Assumptions C110_chain_verifies.
Print Assumptions C110_honest_chain.
Print Assumptions C111_parts_refuted.
Print Assumptions C111_sum_hides.
Print Assumptions C111_no_opening.
Print Assumptions C112_chain.
Print Assumptions C112_error.
Print Assumptions C112_shipped.
Print Assumptions C113_poly_lengths.
Print Assumptions C113_poly_lengths_ok.
Print Assumptions C113_fold_prove.
Print Assumptions C113_empty_x.
Print Assumptions C113_mle_add.
Print Assumptions C113_mle_add_ok.
Print Assumptions C114_weights_refuted.
Print Assumptions C114_zero_refuted.
Print Assumptions C114_fits.
Print Assumptions C114_panics.
Print Assumptions C114_release_ignores.
Print Assumptions C114_minimal.
Print Assumptions C114_shipped.
Print Assumptions C114_two_k.
Print Assumptions C115_roundtrip.
Print Assumptions C115_canonical.
Print Assumptions C115_injective.
Print Assumptions C115_verify.
Print Assumptions C115_size.
Print Assumptions C115_honest.
Print Assumptions C115_element.
Print Assumptions C116_cm_error.
Print Assumptions C116_bits.
Print Assumptions C117_order_refuted.
Print Assumptions C117_late_b.
Print Assumptions C117_late_count.
Print Assumptions C118_adaptive.
Print Assumptions C118_chain.
Print Assumptions C118_shipped.
Print Assumptions C119_chain.
Print Assumptions C119_shipped.
Print Assumptions C120_release_refuted.
Print Assumptions C120_debug.
Print Assumptions C120_agrees.
Print Assumptions C120_underflow.
Print Assumptions C121_one_refuted.
Print Assumptions C121_instance.
Print Assumptions C121_folded.
Print Assumptions C122_evaluate.
Print Assumptions C122_order.
Print Assumptions C122_fields.
Print Assumptions C122_satisfied.
Print Assumptions C122_rows.
Print Assumptions C123_named.
Print Assumptions C123_same.
Print Assumptions C123_short.
Print Assumptions C123_collision_refuted.
Print Assumptions C124_dummy.
Print Assumptions C124_dummy_satisfied.
Print Assumptions C124_non_scalar.
Print Assumptions C124_degree_three.
Print Assumptions C124_sizes.
Print Assumptions C124_small_sizes.
Print Assumptions C124_vitalik.
Print Assumptions C124_cubic.
Print Assumptions C124_cubic_slots.
Print Assumptions C124_slots.
Print Assumptions C124_inputs_refuted.
Print Assumptions C124_no_inputs_refuted.
Print Assumptions C124_s_prime_refuted.
