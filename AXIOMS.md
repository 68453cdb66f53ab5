# What Print Assumptions lists for each theorem

Generated by `tools/axioms.py`.  All are axioms of the Coq standard library.

* A = `ClassicalDedekindReals.sig_forall_dec`
* B = `ClassicalDedekindReals.sig_not_dec`
* C = `Classical_Prop.classic`
* D = `FunctionalExtensionality.functional_extensionality_dep`

| file | theorem | axioms |
|---|---|---|
| PropAd.v | C53_grouped_sum | A D |
| PropAd.v | C53_errors | A D |
| PropAd.v | C53_low_label | A D |
| PropAd.v | C53_float_labels | A D |
| PropAd.v | C54_derivatives | A D |
| PropAd.v | C54_float_labels_refuted | A D |
| PropAd.v | C54_bool_labels_refuted | A D |
| PropAd.v | C55_replace | none |
| PropAd.v | C55_replace_by_number | none |
| PropAd.v | C55_inputs_kept | none |
| PropAd.v | C55_bad_index | none |
| PropAd.v | C55_mask | none |
| PropAd.v | C55_derivatives | A D |
| PropAd.v | C55_duplicate_refuted | A D |
| PropAd.v | C55_matrix_forward_fails | A |
| PropAd.v | C55_matrix_rows_refuted | A |
| PropAd.v | C55_number_refuted | A |
| PropAd.v | C56_products | A D |
| PropAd.v | C56_derivatives | A D |
| PropAd.v | C56_parity | none |
| PropAd.v | C56_errors | A D |
| PropAd.v | C56_solvers | A B D |
| PropAd.v | C57_inverse | A B D |
| PropAd.v | C57_inverse_stack | A B D |
| PropAd.v | C57_solve_matrix_argument_vector | A B D |
| PropAd.v | C57_solve_matrix_argument_matrix | A B D |
| PropAd.v | C57_solve_right_side_vector | A D |
| PropAd.v | C57_solve_right_side_matrix | A D |
| PropAd.v | C68_slogdet | A B C D |
| PropAd.v | C68_slogdet_stack | A |
| PropAd.v | C69_special_functions | A B C D |
| PropAlias.v | C78_fold_values | A B C D |
| PropAlias.v | C78_flatten_values | A B C D |
| PropAlias.v | C78_free_fold_copies | A B C D |
| PropAlias.v | C78_array_fold_copies | A B C D |
| PropAlias.v | C78_flatten_copies | A B C D |
| PropAlias.v | C78_members_apart | A B C D |
| PropAlias.v | C78_nonfree_view | A B C D |
| PropAlias.v | C78_nonfree_reference | A B C D |
| PropAlias.v | C78_never_a_reference_refuted | A B C D |
| PropAlias.v | C78_assignment | none |
| PropBound.v | C85_fold | A B C D |
| PropBound.v | C85_flatten | A B C D |
| PropBound.v | C85_interior | A B C D |
| PropBound.v | C85_numeric_nan | A B C D |
| PropBound.v | C85_simplex_nan | A B C D |
| PropBound.v | C85_psd_nan | A B C D |
| PropBound.v | C85_psd_off_diagonal | A B C D |
| PropBound.v | C85_psd_first_column_refuted | A B C D |
| PropBound.v | C85_logsumexp | A B C D |
| PropBound.v | C85_every_infinity_refuted | A B C D |
| PropDict.v | C20_dict_lengths | none |
| PropDict.v | C20_tree_view | A B C D |
| PropDict.v | C21_lock_forever | none |
| PropDict.v | C21_lock_happens | none |
| PropDict.v | C21_locked_tree | none |
| PropDict.v | C22_self_insertion | none |
| PropDict.v | C23_failed_assignment | none |
| PropDict.v | C24_emptied_lengths | none |
| PropDict.v | C24_emptied_empty_bool | A B C D |
| PropDict.v | C24_emptied_inside_never_folds | A B C D |
| PropDict.v | C24_emptied_fold_type_error | A B C D |
| PropDict.v | C66_subclass_not_locked | none |
| PropDict.v | C66_subclass_stale | none |
| PropDir.v | C87_directions | A B C D |
| PropDir.v | C87_image | A B C D |
| PropDir.v | C87_image_reverse | A B C D |
| PropDir.v | C87_first_order | A B C D |
| PropDir.v | C87_psd | A B C D |
| PropDir.v | C87_local_minimum | A B C D |
| PropDir.v | C87_inside_convex | A B C D |
| PropDir.v | C87_convex | A B C D |
| PropDir.v | C87_free_convex_refuted | A B C D |
| PropEnd.v | C74_bijection | A B C D |
| PropEnd.v | C74_minimisers | A B C D |
| PropEnd.v | C75_preconditioned_minimisers | A |
| PropEnd.v | C76_gradient | A B C D |
| PropEnd.v | C76_gradient_psd | A B C D |
| PropEnd.v | C76_stationary | A B C D |
| PropEnd.v | C76_stationary_simplex | A B C D |
| PropEnd.v | C77_random_value | A B C D |
| PropEnd.v | C77_float_length | A B C D |
| PropEnd.v | C77_range | A B C D |
| PropFlt.v | C70_open_valid | A B C D |
| PropFlt.v | C70_lower_round_trip | A B C D |
| PropFlt.v | C70_upper_round_trip | A B C D |
| PropFlt.v | C70_unbounded_exact | A B C D |
| PropFlt.v | C70_round_trip_refuted | A B C D |
| PropFlt.v | C71_accurate | A B C D |
| PropFlt.v | C71_unit_interval | A B C D |
| PropFlt.v | C71_no_nan_refuted | A B C D |
| PropFlt.v | C71_within_bounds_refuted | A B C D |
| PropFlt.v | C72_valid | A B C D |
| PropFlt.v | C72_accurate | A B C D |
| PropFlt.v | C72_round_trip | A B C D |
| PropFlt.v | C72_tame | A B C D |
| PropFlt.v | C72_valid_refuted | A B C D |
| PropFlt.v | C72_round_trip_refuted | A B C D |
| PropFlt.v | C73_exp_diagonal | A B C D |
| PropFlt.v | C73_log_diagonal | A B C D |
| PropFlt.v | C73_off_diagonal | A B C D |
| PropFlt.v | C73_fold_flatten_refuted | A B C D |
| PropFlt.v | C73_flatten_fold_refuted | A B C D |
| PropFltChol.v | C88_accurate | A B C D |
| PropFltChol.v | C88_round | A B C D |
| PropFltChol.v | C88_accepts | A B C D |
| PropFltChol.v | C88_rejects | A B C D |
| PropFltChol.v | C88_definite_refuted | A B C D |
| PropFltChol.v | C88_indefinite_refuted | A B C D |
| PropFltChol.v | C88_one | A B C D |
| PropFltChol.v | C88_infinite_refuted | A B C D |
| PropFltJac.v | C90_jacobian | A B C D |
| PropFltJac.v | C90_log_det | A B C D |
| PropFltJac.v | C90_raises | A B C D |
| PropFltJac.v | C90_log_det_refuted | A B C D |
| PropFltJac.v | C90_lost | A B C D |
| PropFltJac.v | C90_row_lost | A B C D |
| PropFltJac.v | C90_no_blocks | A B C D |
| PropFltMat.v | C84_entries | A B C D |
| PropFltMat.v | C84_valid | A B C D |
| PropFltMat.v | C84_accurate | A B C D |
| PropFltMat.v | C84_overflow_refuted | A B C D |
| PropFltPat.v | C89_fold | A B C D |
| PropFltPat.v | C89_wrong_length | A B C D |
| PropFltPat.v | C89_valid | A B C D |
| PropFltPat.v | C89_flatten | A B C D |
| PropFltPat.v | C89_round | A B C D |
| PropFltPat.v | C89_validate | A B C D |
| PropFltPat.v | C89_accepts | A B C D |
| PropFltPat.v | C89_float_bounds | A B C D |
| PropFltPat.v | C89_int_bounds | A B C D |
| PropFltSum.v | C94_grouped | A B C D |
| PropFltSum.v | C94_failures | A B C D |
| PropFltSum.v | C94_accuracy | A B C D |
| PropFltSum.v | C94_whole | A B C D |
| PropFltSum.v | C94_nan | A B C D |
| PropFltSum.v | C94_order_refuted | A B C D |
| PropFltSum.v | C94_logsumexp | A B C D |
| PropFltTrip.v | C92_round_trip | A B C D |
| PropFltTrip.v | C92_round_trip_refuted | A B C D |
| PropFltWide.v | C95_accurate | A B C D |
| PropFltWide.v | C95_sum | A B C D |
| PropFltWide.v | C95_infinite | A B C D |
| PropFltWide.v | C95_first_zero_refuted | A B C D |
| PropFltWide.v | C95_gone | A B C D |
| PropFltWide.v | C95_logsumexp_gone | A B C D |
| PropFltWide.v | C95_later_zero | A B C D |
| PropGrammar.v | C82_grammar | none |
| PropGrammar.v | C82_loads | none |
| PropGrammar.v | C82_refuses | none |
| PropGrammar.v | C82_unambiguous | none |
| PropGrammar.v | C82_written | none |
| PropGrammar.v | C83_numeric | A B C D |
| PropGrammar.v | C83_psd | A B C D |
| PropGrammar.v | C83_refused | A B C D |
| PropGrammar.v | C83_bounds_refused | A B C D |
| PropGrammar.v | C83_simplex | A B C D |
| PropGrammar.v | C83_array | A B C D |
| PropGrammar.v | C83_dict | A B C D |
| PropIndex.v | C12_nonfree_indices | A B C D |
| PropIndex.v | C13_free_indices_dependencies | A B C D |
| PropIndex.v | C14_indices_well_formed | A B C D |
| PropIndex.v | C15_free_indices_exact | A B C D |
| PropIndex.v | C15_psd_imprecise | A B C D |
| PropIndex.v | C16_empty_bool | A B C D |
| PropJac.v | C41_numeric_jacobians | A B C D |
| PropJac.v | C41_edges | A B C D |
| PropJac.v | C41_upper_bound_refuted | A B C D |
| PropJac.v | C42_simplex_jacobians | A B C D |
| PropJac.v | C42_no_simplexes | A B C D |
| PropJac.v | C43_inverse | A B C D |
| PropJac.v | C43_inverse_with_psd | A B C D |
| PropJac.v | C43_inverse_from_derivatives | A B C D |
| PropJac.v | C44_derivatives | A B C D |
| PropJac.v | C44_derivatives_with_psd | A B C D |
| PropJac.v | C44_psd_unfreeing_differentiable | A B C D |
| PropJac.v | C44_psd_differentiable | A B C D |
| PropJac.v | C44_partials_suffice | A B C D |
| PropJac.v | C44_derivatives_along | A B C D |
| PropJac.v | C44_symmetrised_refuted | A B C D |
| PropJac.v | C44_symmetrised_accepted | A B C D |
| PropJac.v | C44_dict_blocks | A B C D |
| PropJac.v | C44_array_blocks | A B C D |
| PropJac.v | C45_log_determinants | A B C D |
| PropJac.v | C45_unsupported | A B C D |
| PropJson.v | C25_round_trip | A B C D |
| PropJson.v | C25_reads_back | A B C D |
| PropJson.v | C25_any_string_key_refuted | A B C D |
| PropJson.v | C25_parse_any_bound | none |
| PropJson.v | C25_reader_any_bound | A B C D |
| PropJson.v | C26_same_behaviour | A B C D |
| PropJson.v | C26_emptied_refuted | A B C D |
| PropJson.v | C27_json_loses | A B C D |
| PropJson.v | C27_json_unlocks | A B C D |
| PropJson.v | C28_eq_equivalence | A B C D |
| PropJson.v | C28_eq_same_behaviour | A B C D |
| PropJson.v | C28_surrogate_refuted | A B C D |
| PropJson.v | C28_fractional_size_refuted | A D |
| PropJson.v | C29_eq_not_congruence | A B C D |
| PropJson.v | C30_int_keys | A B C D |
| PropJson.v | C31_no_pattern_entry | A B C D |
| PropJson.v | C31_unregistered | A B C D |
| PropJson.v | C31_not_object | A B C D |
| PropJson.v | C31_other_name | A B C D |
| PropJson.v | C31_other_class | A B C D |
| PropJson.v | C32_registry_resolves | none |
| PropJson.v | C32_registry_refuses | none |
| PropJson.v | C32_builtins_registered | none |
| PropNames.v | C58_count | A D |
| PropNames.v | C58_int_keys | A D |
| PropNames.v | C58_numeric | none |
| PropNames.v | C58_numeric_entry | A B C D |
| PropNames.v | C58_numeric_unique | none |
| PropNames.v | C58_plain | A D |
| PropNames.v | C58_dict | A D |
| PropNames.v | C58_distinct | A D |
| PropNames.v | C58_distinct_plain | A D |
| PropNames.v | C58_distinct_refuted | A B C D |
| PropNames.v | C58_default_refuted | A B C D |
| PropNames.v | C58_default_error_refuted | A B C D |
| PropNames.v | C58_default_agree | none |
| PropOptim.v | C49_history | A B D |
| PropOptim.v | C49_initial | A B D |
| PropOptim.v | C49_failed_call | A B D |
| PropOptim.v | C49_call_evaluates | A B D |
| PropOptim.v | C49_inverse_call | A B D |
| PropOptim.v | C49_matrices | A B D |
| PropOptim.v | C50_hessian_preconditioner | A B D |
| PropOptim.v | C50_whitens | A B D |
| PropOptim.v | C50_vector_not_definite | A D |
| PropOptim.v | C50_arguments | A B D |
| PropOptim.v | C50_failures | A B D |
| PropOptim.v | C51_truncation | A D |
| PropOptim.v | C51_complex_minimum | A D |
| PropOptim.v | C51_complex_maximum | A D |
| PropOptim.v | C52_history | none |
| PropOptim.v | C52_outcomes | none |
| PropOptim.v | C52_raising | none |
| PropOptim.v | C62_sparse_preconditioner | A B D |
| PropOptim.v | C62_dense_argument | none |
| PropOptim.v | C63_operator_matrix | A D |
| PropOptim.v | C63_preconditioner | A B D |
| PropOptim.v | C63_dimension_zero | none |
| PropOptim.v | C64_raises | A B D |
| PropOptim.v | C64_correct_passes | A B D |
| PropOptim.v | C64_nan_passes | A B D |
| PropOptim.v | C64_lengths | A B D |
| PropOptim.v | C64_errors | A B D |
| PropOptim.v | C67_log_refuted | A D |
| PropOptim.v | C67_log_without_late_writes | none |
| PropPsd.v | C46_psd_free_iff | A B C D |
| PropPsd.v | C47_validates_but_not_free | A B C D |
| PropPsd.v | C48_unvectorize_accepts | A |
| PropPsd.v | C48_unvectorize_rejects | A |
| PropPsd.v | C48_vectorize_spec | none |
| PropPsd.v | C48_vectorize_of_unvectorize | A |
| PropPsd.v | C48_unvectorize_of_vectorize | A |
| PropPsd.v | C48_unvectorize_adjoint | A D |
| PropPsd.v | C48_unvectorize_vjp_shapes | none |
| PropPsd.v | C48_unvectorize_jvp_linear | A D |
| PropPsd.v | C48_symmetric_unvectorize | A D |
| PropPsd.v | C48_symmetric_of_vectorize | A D |
| PropPsd.v | C48_symmetric_rejects | A |
| PropPsd.v | C48_symmetric_infinite | A |
| PropPsd.v | C48_symmetric_infinite_refuted | A |
| PropPsd.v | C48_sym_index | none |
| PropPsd.v | C59_numeric_constructor | A B C D |
| PropPsd.v | C59_numeric_failures | A B C D |
| PropPsd.v | C59_simplex_constructor | none |
| PropPsd.v | C59_psd_constructor | A D |
| PropPsd.v | C59_array_constructor | none |
| PropPsd.v | C60_fractional_psd | A B C D |
| PropPsd.v | C61_logsumexp_spec | A B C D |
| PropPsd.v | C61_logsumexp_no_overflow | A D |
| PropPsd.v | C61_logsumexp_shift | A B C D |
| PropRev.v | C86_unpack_vjp | A B C D |
| PropRev.v | C86_pack_vjp | A B C D |
| PropRev.v | C86_unfreeing | A B C D |
| PropRev.v | C86_freeing | A B C D |
| PropRev.v | C86_inverse | A B C D |
| PropRev.v | C86_partials_refuted | A B C D |
| PropRev.v | C86_gradient | A B C D |
| PropRev.v | C86_backward | A B C D |
| PropRound.v | C01_free_flatten_of_fold | A B C D |
| PropRound.v | C01_usable_of_built | A B C D |
| PropRound.v | C02_free_fold_of_flatten | A B C D |
| PropRound.v | C03_nonfree_fold_of_flatten | A B C D |
| PropRound.v | C04_nonfree_flatten_of_fold | A B C D |
| PropRound.v | C05_fold_interior | A B C D |
| PropRound.v | C06_length | A B C D |
| PropRound.v | C09_lenient | A B C D |
| PropRound.v | C11_free_default | A B C D |
| PropRound.v | C11_flat_indices_default | A B C D |
| PropRound.v | C11_nested_default_ignored | A B C D |
| PropRound.v | C18_dict_flatten | A B C D |
| PropRound.v | C18_dict_fold | A B C D |
| PropRound.v | C18_dict_local | A B C D |
| PropRound.v | C19_array_flatten | A B C D |
| PropRound.v | C19_array_fold | A B C D |
| PropRound.v | C19_ravel_rank | none |
| PropRound.v | C65_same_entries | A B C D |
| PropRound.v | C65_same_indices | A B C D |
| PropRound.v | C65_permuted | none |
| PropRound.v | C65_extra_keys | none |
| PropRound.v | C65_missing_key | A B C D |
| PropRound.v | C65_missing_key_rejected | A B C D |
| PropSave.v | C33_save_load | A B C D |
| PropSave.v | C33_save_succeeds | A B C D |
| PropSave.v | C33_save_history | A B C D |
| PropSave.v | C33_any_extra_refuted | A B C D |
| PropSave.v | C33_other_files | A B C D |
| PropSave.v | C33_texts | none |
| PropSave.v | C34_extension_added | A B C D |
| PropSave.v | C34_extension_kept | A B C D |
| PropSecond.v | C91_derivative | A B C D |
| PropSecond.v | C91_derivative_reverse | A B C D |
| PropSecond.v | C91_hessian | A B C D |
| PropSecond.v | C91_hessian_reverse | A B C D |
| PropSecond.v | C91_hessian_refuted | A B C D |
| PropSecond.v | C91_definite | A B C D |
| PropSecond.v | C91_sufficient | A B C D |
| PropSecond.v | C91_necessary | A B C D |
| PropText.v | C79_succeeds | none |
| PropText.v | C79_leaf_texts | none |
| PropText.v | C79_dict_text | none |
| PropText.v | C79_determines | none |
| PropText.v | C79_nesting_refuted | A D |
| PropText.v | C80_empty_iff_valid | A D |
| PropText.v | C80_leaf | A D |
| PropText.v | C80_numeric_shape | A D |
| PropText.v | C80_array_swapped_refuted | A D |
| PropText.v | C80_array_first | A D |
| PropText.v | C80_dict | A D |
| PropText.v | C80_member_not_named_refuted | A D |
| PropText.v | C80_wrapper_refuted | none |
| PropText.v | C81_constructors | A B C D |
| PropText.v | C81_classes | none |
| PropText.v | C81_shape | A B C D |
| PropText.v | C81_valid_shape | A D |
| PropText.v | C81_keys | A B C D |
| PropText.v | C81_set | none |
| PropText.v | C81_del | none |
| PropValid.v | C07_validate_iff | A D |
| PropValid.v | C07_bounds_and_nan_validate | A D |
| PropValid.v | C08_upper_bound_lost | A B C D |
| PropValid.v | C08_other_bounds_kept | A B C D |
| PropValid.v | C10_array_validation_answers | A D |
| PropValid.v | C10_numeric_validation_answers | A D |
| PropValid.v | C10_simplex_psd_validation_raises | A D |
| PropValid.v | C10_dict_validation_raises | A B C D |
| PropValid.v | C17_empty_valid | A B C D |
| PropWhite.v | C93_hessian | A D |
| PropWhite.v | C93_truncated | A B D |
| PropWhite.v | C93_whitened | A B D |
| PropWhite.v | C93_conditioning | A D |
| PropWhite.v | C93_optimum | A B C D |
| PropWrap.v | C35_inputs | none |
| PropWrap.v | C35_self | none |
| PropWrap.v | C35_unique | none |
| PropWrap.v | C36_negative_inputs | none |
| PropWrap.v | C36_negative_outputs | none |
| PropWrap.v | C36_mixed_inputs | none |
| PropWrap.v | C36_mixed_outputs | none |
| PropWrap.v | C36_mixed_length | none |
| PropWrap.v | C37_checks | none |
| PropWrap.v | C38_inputs | A B C D |
| PropWrap.v | C38_inputs_flat | A B C D |
| PropWrap.v | C38_outputs | A B C D |
| PropWrap.v | C38_outputs_flat | A B C D |
| PropWrap.v | C39_outputs | none |
| PropWrap.v | C39_wrappers_unnamed | none |
| PropWrap.v | C40_combined | none |
