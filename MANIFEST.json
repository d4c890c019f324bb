{
 "claims": [
  {
   "property": "C01",
   "status": "proved",
   "theorems": [
    "C01_to_array_paths"
   ],
   "note": "all indices of to_array and its shape"
  },
  {
   "property": "C02",
   "status": "partial",
   "theorems": [
    "C02_from_array",
    "C02_from_array_int",
    "C02_from_array_none",
    "C02_roundtrip",
    "C02_none_virtual_error",
    "C02_trailing_sites_refuted",
    "C02_ndims_zero_refuted"
   ],
   "note": "proved for every split whose last group has legs; trailing groups without legs are dropped (C02_trailing_sites_refuted), ndims=0 does not return"
  },
  {
   "property": "C03",
   "status": "proved",
   "theorems": [
    "C03_global_to_local",
    "C03_local_to_global",
    "C03_order_error",
    "C03_from_array_global"
   ],
   "note": ""
  },
  {
   "property": "C04",
   "status": "proved",
   "theorems": [
    "C04_from_kron",
    "C04_from_kron_empty"
   ],
   "note": ""
  },
  {
   "property": "C05",
   "status": "proved",
   "theorems": [
    "C05_add_entrywise",
    "C05_sub_entrywise",
    "C05_add_length_error"
   ],
   "note": ""
  },
  {
   "property": "C06",
   "status": "partial",
   "theorems": [
    "C06_mul_entrywise",
    "C06_imul_entrywise",
    "C06_neg_entrywise",
    "C06_div_entrywise",
    "C06_mul_overlap_refuted"
   ],
   "note": "entrywise for every input; truth of the form for non-overlapping regions (l < r) and for *= always; refuted for * with overlapping regions (C06_mul_overlap_refuted)"
  },
  {
   "property": "C07",
   "status": "proved",
   "theorems": [
    "C07_sumup"
   ],
   "note": ""
  },
  {
   "property": "C08",
   "status": "proved",
   "theorems": [
    "C08_dot"
   ],
   "note": ""
  },
  {
   "property": "C09",
   "status": "partial",
   "theorems": [
    "C09_partialdot_left",
    "C09_partialdot_right",
    "C09_window_overflow_refuted"
   ],
   "note": "proved for every window that fits; the clause \"windows that do not fit are rejected\" is refuted"
  },
  {
   "property": "C10",
   "status": "proved",
   "theorems": [
    "C10_inner",
    "C10_inner_hermitian",
    "C10_inner_linear"
   ],
   "note": ""
  },
  {
   "property": "C11",
   "status": "proved",
   "theorems": [
    "C11_sandwich",
    "C11_sandwich_default",
    "C11_sandwich_inner",
    "C11_length_refuted"
   ],
   "note": "chains of equal length; other lengths are silently truncated (C11_length_refuted)"
  },
  {
   "property": "C12",
   "status": "proved",
   "theorems": [
    "C12_chain",
    "C12_chain_assoc",
    "C12_localouter"
   ],
   "note": ""
  },
  {
   "property": "C13",
   "status": "proved",
   "theorems": [
    "C13_transpose",
    "C13_conj",
    "C13_adj"
   ],
   "note": ""
  },
  {
   "property": "C14",
   "status": "partial",
   "theorems": [
    "C14_sum",
    "C14_none_first_refuted",
    "C14_negative_axis_refuted"
   ],
   "note": "proved for non-negative axes; None as first per-site entry and negative axes are refuted"
  },
  {
   "property": "C15",
   "status": "partial",
   "theorems": [
    "C15_get",
    "C15_get_length_error",
    "C15_axis_iter",
    "C15_axis_iter_order_refuted",
    "C15_diag"
   ],
   "note": "proved; the documented order of axis_iter is refuted (last site varies fastest)"
  },
  {
   "property": "C16",
   "status": "proved",
   "theorems": [
    "C16_reshape",
    "C16_ravel",
    "C16_reshape_error",
    "C16_reshape_cases",
    "C16_reshape_empty",
    "C16_reshape_surplus",
    "C16_reshape_short",
    "C16_reshape_short_refuted"
   ],
   "note": ""
  },
  {
   "property": "C17",
   "status": "partial",
   "theorems": [
    "C17_group_split",
    "C17_split_sites",
    "C17_no_legs_refuted",
    "C17_group_sites",
    "C17_group_sites_error"
   ],
   "note": "proved when sites have legs; sites without legs come back merged (C17_no_legs_refuted)"
  },
  {
   "property": "C18",
   "status": "proved",
   "theorems": [
    "C18_vleg2leg",
    "C18_leg2vleg",
    "C18_leg2vleg_vleg2leg",
    "C18_vleg2leg_last_error",
    "C18_vleg2leg_negative"
   ],
   "note": ""
  },
  {
   "property": "C19",
   "status": "partial",
   "theorems": [
    "C19_copy",
    "C19_passed_on",
    "C19_leg2vleg_form_refuted"
   ],
   "note": "proved for copy, mul, imul, neg, conj, transpose here, reshape/ravel/vleg2leg/split in C16, C18, C20, load in C63; leg2vleg refuted"
  },
  {
   "property": "C20",
   "status": "partial",
   "theorems": [
    "C20_split",
    "C20_split_outside",
    "C20_split_last_refuted",
    "C20_reverse"
   ],
   "note": "proved for every interior and outside position; split at the last site raises IndexError (refuted)"
  },
  {
   "property": "C21",
   "status": "proved",
   "theorems": [
    "C21_canonicalize"
   ],
   "note": ""
  },
  {
   "property": "C22",
   "status": "proved",
   "theorems": [
    "C22_canonicalize",
    "C22_default"
   ],
   "note": ""
  },
  {
   "property": "C23",
   "status": "partial",
   "theorems": [
    "C23_histories_partial",
    "C23_honest_updates_refuted"
   ],
   "note": "proved for histories in which no flagged update is made while the canonical regions touch; without this the claim is refuted (C23_honest_updates_refuted)"
  },
  {
   "property": "C24",
   "status": "partial",
   "theorems": [
    "C24_update_int",
    "C24_update_out_of_range",
    "C24_update_slice",
    "C24_negative_index_refuted",
    "C24_slice_count_refuted",
    "C24_string_flag_refuted"
   ],
   "note": "proved for non-negative indices and contiguous slices with as many tensors; negative indices, string flags on slices and other slices are refuted"
  },
  {
   "property": "C25",
   "status": "partial",
   "theorems": [
    "C25_norm",
    "C25_normdist",
    "C25_normdist_sub",
    "C25_norm_raises_refuted"
   ],
   "note": "proved for every constructible form (cform_ok); after an update that marks all sites left-canonical norm raises ValueError (refuted)"
  },
  {
   "property": "C26",
   "status": "proved",
   "theorems": [
    "C26_compress",
    "C26_compress_form",
    "C26_compress_errors",
    "C26_truncated_svd"
   ],
   "note": ""
  },
  {
   "property": "C27",
   "status": "proved",
   "theorems": [
    "C27_error_identity",
    "C27_discarded_weight_right",
    "C27_discarded_weight_left",
    "C27_truncations",
    "C27_relerr_count",
    "C27_relerr",
    "C27_relerr_compression",
    "C27_relerr_range"
   ],
   "note": "relerr: over the complex numbers, for singular values that are non-negative and sorted as numpy documents; the number kept is the least possible, at least 1, limited by rank"
  },
  {
   "property": "C28",
   "status": "proved",
   "theorems": [
    "C28_exact",
    "C28_compression"
   ],
   "note": ""
  },
  {
   "property": "C29",
   "status": "proved",
   "theorems": [
    "C29_singularvals",
    "C29_one_site"
   ],
   "note": ""
  },
  {
   "property": "C30",
   "status": "proved",
   "theorems": [
    "C30_pad_ranks",
    "C30_pad_ranks_error"
   ],
   "note": "pad_ranks without rank on one site raises ValueError"
  },
  {
   "property": "C31",
   "status": "proved",
   "theorems": [
    "C31_inject",
    "C31_inject_unordered"
   ],
   "note": ""
  },
  {
   "property": "C32",
   "status": "proved",
   "theorems": [
    "C32_prune",
    "C32_prune_singletons",
    "C32_pruned_meaning"
   ],
   "note": ""
  },
  {
   "property": "C33",
   "status": "proved",
   "theorems": [
    "C33_partialtrace",
    "C33_trace"
   ],
   "note": ""
  },
  {
   "property": "C34",
   "status": "proved",
   "theorems": [
    "C34_regular_slices",
    "C34_regular_slices_uncovered",
    "C34_embed_slice",
    "C34_embed_slice_wrong_width"
   ],
   "note": ""
  },
  {
   "property": "C35",
   "status": "proved",
   "theorems": [
    "C35_local_sum_identity",
    "C35_local_sum"
   ],
   "note": ""
  },
  {
   "property": "C36",
   "status": "proved",
   "theorems": [
    "C36_block_diag",
    "C36_block_diag_local_add"
   ],
   "note": ""
  },
  {
   "property": "C37",
   "status": "proved",
   "theorems": [
    "C37_full_rank",
    "C37_from_array",
    "C37_canonicalize",
    "C37_two_sweeps",
    "C37_fresh"
   ],
   "note": ""
  },
  {
   "property": "C38",
   "status": "proved",
   "theorems": [
    "C38_reductions_mpo",
    "C38_width",
    "C38_width_starts",
    "C38_error",
    "C38_negative_start_refuted"
   ],
   "note": "windows inside the chain; what happens for others is stated (C38_negative_start_refuted)"
  },
  {
   "property": "C39",
   "status": "proved",
   "theorems": [
    "C39_reductions_pmps",
    "C39_pmps_legs",
    "C39_width",
    "C39_to_mpo",
    "C39_agrees_with_mpo",
    "C39_mps_as_mpo",
    "C39_dispatch",
    "C39_dispatch_mode",
    "C39_negative_start_refuted"
   ],
   "note": "windows inside the chain; `reductions` returns results that represent the partial traces in the mode it returns (C39_dispatch); a negative first site is accepted and gives a wrong chain (C39_negative_start_refuted)"
  },
  {
   "property": "C40",
   "status": "proved",
   "theorems": [
    "C40_pmps_to_mpo",
    "C40_mps_to_pmps",
    "C40_pmps_to_mps",
    "C40_roundtrip",
    "C40_mps_to_mpo",
    "C40_errors"
   ],
   "note": ""
  },
  {
   "property": "C41",
   "status": "proved",
   "theorems": [
    "C41_dm_to_array",
    "C41_dm_to_array_global",
    "C41_dm_to_array_global_error",
    "C41_reduction",
    "C41_reduction_error",
    "C41_duplicate_support_refuted"
   ],
   "note": "supports without repetition; a repeated site defeats the trace (C41_duplicate_support_refuted)"
  },
  {
   "property": "C42",
   "status": "proved",
   "theorems": [
    "C42_zero",
    "C42_eye",
    "C42_eye_error",
    "C42_diagonal",
    "C42_diagonal_one",
    "C42_diagonal_error"
   ],
   "note": ""
  },
  {
   "property": "C43",
   "status": "proved",
   "theorems": [
    "C43_random_mpa",
    "C43_generate_error",
    "C43_random_mpo",
    "C43_random_mpdo",
    "C43_random_mpdo_rank0",
    "C43_unitary_haar",
    "C43_random_vec",
    "C43_random_op",
    "C43_random_state",
    "C43_random_local_ham",
    "C43_random_local_ham_error",
    "C43_long_ranks_refuted"
   ],
   "note": "for every stream of draws of the right shape; normalisation under the stated exactness of sqrt and division; C43_long_ranks_refuted: without force_rank a too long list of ranks is cut silently"
  },
  {
   "property": "C44",
   "status": "proved",
   "theorems": [
    "C44_new",
    "C44_rename",
    "C44_renamed",
    "C44_rename_error",
    "C44_conj",
    "C44_to_array",
    "C44_to_array_error",
    "C44_tensordot",
    "C44_tensordot_error"
   ],
   "note": ""
  },
  {
   "property": "C45",
   "status": "proved",
   "theorems": [
    "C45_inner_prod_mps",
    "C45_inner_prod_error",
    "C45_sumup",
    "C45_sumup_one",
    "C45_sumup_error",
    "C45_truncated_svd",
    "C45_inner_prod_length_refuted"
   ],
   "note": "sumup for product tensors and exact truncated SVD; C45_inner_prod_length_refuted: different lengths are not noticed"
  },
  {
   "property": "C46",
   "status": "proved",
   "theorems": [
    "C46_partial_trace",
    "C46_partial_trace_error",
    "C46_mkron",
    "C46_kron_assoc",
    "C46_mkron_app",
    "C46_mkron_empty",
    "C46_matdot",
    "C46_matdot_error",
    "C46_mkron_axes"
   ],
   "note": "partial_trace for ascending sites, as documented"
  },
  {
   "property": "C47",
   "status": "proved",
   "theorems": [
    "C47_x_povm",
    "C47_y_povm",
    "C47_z_povm",
    "C47_pauli_povm",
    "C47_qubit_x",
    "C47_qubit_y",
    "C47_qubit_z",
    "C47_small"
   ],
   "note": ""
  },
  {
   "property": "C48",
   "status": "proved",
   "theorems": [
    "C48_pauli_povm",
    "C48_x_not_complete"
   ],
   "note": ""
  },
  {
   "property": "C49",
   "status": "proved",
   "theorems": [
    "C49_mpdo",
    "C49_pmps",
    "C49_mps",
    "C49_windows_mpdo",
    "C49_windows_pmps",
    "C49_windows_mps",
    "C49_total",
    "C49_nonneg",
    "C49_product",
    "C49_from_local",
    "C49_errors"
   ],
   "note": ""
  },
  {
   "property": "C50",
   "status": "proved",
   "theorems": [
    "C50_same_array",
    "C50_agree",
    "C50_every_cut",
    "C50_cut_inside",
    "C50_probabilities",
    "C50_states_positive",
    "C50_unnormalised",
    "C50_errors"
   ],
   "note": ""
  },
  {
   "property": "C51",
   "status": "partial",
   "theorems": [
    "C51_embed",
    "C51_embed_complete",
    "C51_embed_errors",
    "C51_block",
    "C51_block_error",
    "C51_repeat",
    "C51_repeat_factor",
    "C51_repeat_error",
    "C51_list_block",
    "C51_list_repeat",
    "C51_embed_negative_refuted",
    "C51_repeat_gauge_refuted"
   ],
   "note": "embed, block and whole-number repeat proved, with error cases; embed with a negative startsite and the gauge independence of a partial repeat are refuted"
  },
  {
   "property": "C52",
   "status": "proved",
   "theorems": [
    "C52_unpack_pack",
    "C52_pack_unpack",
    "C52_mixed_radix",
    "C52_errors"
   ],
   "note": ""
  },
  {
   "property": "C53",
   "status": "proved",
   "theorems": [
    "C53_est_pmf",
    "C53_distribution",
    "C53_order",
    "C53_packed",
    "C53_unbiased",
    "C53_errors"
   ],
   "note": ""
  },
  {
   "property": "C54",
   "status": "proved",
   "theorems": [
    "C54_iid",
    "C54_probabilities_exist",
    "C54_sample",
    "C54_data_set",
    "C54_nearly_normalised",
    "C54_unnormalised",
    "C54_errors",
    "C54_group_size"
   ],
   "note": ""
  },
  {
   "property": "C55",
   "status": "proved",
   "theorems": [
    "C55_lfun",
    "C55_lfun_variance",
    "C55_lfun_empty",
    "C55_est_lfun",
    "C55_ones",
    "C55_counts",
    "C55_plain",
    "C55_unbiased",
    "C55_few_samples",
    "C55_light_weights",
    "C55_zero_weights",
    "C55_unit_weight",
    "C55_default_funs",
    "C55_lfun_list",
    "C55_lfun_list_errors"
   ],
   "note": "total weight above one; at most one sample raises ZeroDivisionError, total weight below one is refused or clipped (stated)"
  },
  {
   "property": "C56",
   "status": "partial",
   "theorems": [
    "C56_unweighted_partial",
    "C56_weights_refuted"
   ],
   "note": "without weights the claim is proved; weights are ignored (C56_weights_refuted)"
  },
  {
   "property": "C57",
   "status": "partial",
   "theorems": [
    "C57_match",
    "C57_proportional",
    "C57_prefactor",
    "C57_exclude_dup",
    "C57_match_errors",
    "C57_est_value",
    "C57_est_none",
    "C57_est_exact",
    "C57_est_mean",
    "C57_est_accepts",
    "C57_est_errors",
    "C57_duplicates_refuted",
    "C57_unmatched_refuted"
   ],
   "note": "match_elems proved; est_pmf_from gives the exact and unbiased probabilities when no element matches twice; with duplicates the frequencies are added instead of averaged (C57_duplicates_refuted), with unmatched elements possible data are refused (C57_unmatched_refuted)"
  },
  {
   "property": "C58",
   "status": "proved",
   "theorems": [
    "C58_project_pmf",
    "C58_values",
    "C58_unchanged",
    "C58_nonneg",
    "C58_single_value",
    "C58_negative_trunc_refuted",
    "C58_large_eps_refuted"
   ],
   "note": "proved for tolerances in the stated range; refuted outside it; one truncated value in a zero-dimensional array raises AttributeError"
  },
  {
   "property": "C59",
   "status": "proved",
   "theorems": [
    "C59_mpo_cH",
    "C59_sparse_cH",
    "C59_agree",
    "C59_symmetric",
    "C59_cXY",
    "C59_orientation_refuted",
    "C59_errors",
    "C59_shapes"
   ],
   "note": "C59_orientation_refuted: the last term is placed the other way round than documented for cXY_local_terms"
  },
  {
   "property": "C60",
   "status": "proved",
   "theorems": [
    "C60_local_op_quadratic_form"
   ],
   "note": ""
  },
  {
   "property": "C61",
   "status": "proved",
   "theorems": [
    "C61_eig_fresh",
    "C61_eig_sum_fresh",
    "C61_eig_dense",
    "C61_errors",
    "C61_sum_errors"
   ],
   "note": ""
  },
  {
   "property": "C62",
   "status": "proved",
   "theorems": [
    "C62_fresh",
    "C62_dense",
    "C62_projection",
    "C62_update",
    "C62_compress_var",
    "C62_overlap",
    "C62_no_start",
    "C62_one_site_start",
    "C62_no_update_refuted"
   ],
   "note": "for 1 <= var_sites <= len; environments fresh for any qr/svd, projection and overlap for sound qr/svd; C62_no_update_refuted: without an update (num_sweeps=0 or var_sites > len) the returned number is not the overlap"
  },
  {
   "property": "C63",
   "status": "proved",
   "theorems": [
    "C63_round_trip",
    "C63_file",
    "C63_contents",
    "C63_names",
    "C63_taken",
    "C63_missing",
    "C63_form_refuted"
   ],
   "note": "for every form the constructor accepts; C63_form_refuted: forms outside that range do not survive"
  },
  {
   "property": "C64",
   "status": "partial",
   "theorems": [
    "C64_separate",
    "C64_new_objects_partial",
    "C64_in_place_partial",
    "C64_history_partial",
    "C64_results_partial",
    "C64_arguments_partial",
    "C64_sharing_calls",
    "C64_shared_change",
    "C64_var_unshares",
    "C64_reading",
    "C64_aliasing_refuted"
   ],
   "note": "holds for all calls and histories except the calls that share local tensors: +x, group_sites(1), split outside the chain and MPArray(x.lt); these are characterised exactly, and the claim is refuted for each of them; canonicalization, norm and singularvals leave the arrays of all objects unchanged even when shared"
  },
  {
   "property": "C65",
   "status": "partial",
   "theorems": [
    "C65_whole_weights_partial",
    "C65_no_weights",
    "C65_any_weights",
    "C65_lacking",
    "C65_est_value",
    "C65_est_unbiased",
    "C65_est_weights",
    "C65_fractional_weights_refuted",
    "C65_small_weights_refuted"
   ],
   "note": "exact for positive whole-number weights and without weights; est_lfun_from (weights = numbers of samples) has the weighted average as value, is unbiased and estimates its own variance without bias; for fractional weights the claim is refuted: the integer accumulator gives 3/2 instead of 1, nan for weights below one, AssertionError for weight and coefficients zero"
  },
  {
   "property": "C66",
   "status": "proved",
   "theorems": [
    "C66_probability_map",
    "C66_concat",
    "C66_empty",
    "C66_concat_weights"
   ],
   "note": ""
  },
  {
   "property": "C67",
   "status": "proved",
   "theorems": [
    "C67_local_op",
    "C67_eig_sum_is_eig"
   ],
   "note": ""
  },
  {
   "property": "C68",
   "status": "partial",
   "theorems": [
    "C68_random_mpa",
    "C68_random_local_ham_ignored",
    "C68_random_local_ham_refuted"
   ],
   "note": "random_local_ham ignores its random state (C68_random_local_ham_refuted); the other factories are functions of the stream of the state they are given in the model"
  },
  {
   "property": "C69",
   "status": "proved",
   "theorems": [
    "C69_value",
    "C69_exact",
    "C69_unbiased",
    "C69_list",
    "C69_errors",
    "C69_list_errors",
    "C69_samples_used_refuted"
   ],
   "note": "the number of samples used is 1 if no site is measured by both POVMs (C69_samples_used_refuted); the weights are stated with this exception"
  },
  {
   "property": "C70",
   "status": "proved",
   "theorems": [
    "C70_mpp",
    "C70_mpps",
    "C70_mpp_info_complete",
    "C70_mpps_info_complete",
    "C70_relation",
    "C70_qubits",
    "C70_errors"
   ],
   "note": ""
  },
  {
   "property": "C71",
   "status": "proved",
   "theorems": [
    "C71_result",
    "C71_low_rank",
    "C71_iterations",
    "C71_iterations_adjoint",
    "C71_order",
    "C71_dtype",
    "C71_unknown_normalizer",
    "C71_always_truncated_refuted"
   ],
   "note": "arrays as arguments, at least one column in the sketch; not always a truncated SVD: C71_always_truncated_refuted"
  },
  {
   "property": "C72",
   "status": "proved",
   "theorems": [
    "C72_blocks",
    "C72_windows",
    "C72_agree",
    "C72_embed_positive",
    "C72_traced",
    "C72_modes",
    "C72_too_long"
   ],
   "note": "results of sound QR factorisations; other errors than those of the QR oracle are excluded"
  },
  {
   "property": "C73",
   "status": "proved",
   "theorems": [
    "C73_accepts",
    "C73_bonds",
    "C73_form",
    "C73_cases",
    "C73_new",
    "C73_copy",
    "C73_model_refuted",
    "C73_axes_refuted"
   ],
   "note": ""
  },
  {
   "property": "C74",
   "status": "proved",
   "theorems": [
    "C74_inversion",
    "C74_pauli",
    "C74_least",
    "C74_unique",
    "C74_x_refuted",
    "C74_axes"
   ],
   "note": "relative to a sound pseudo-inverse; recovery without informational completeness fails: C74_x_refuted"
  },
  {
   "property": "C75",
   "status": "proved",
   "theorems": [
    "C75_value",
    "C75_error",
    "C75_negative",
    "C75_monotone",
    "C75_even",
    "C75_bounds",
    "C75_ground_unique",
    "C75_two_sites",
    "C75_ground_even",
    "C75_ground",
    "C75_ground_large",
    "C75_ground_refuted"
   ],
   "note": "for every even N and every gamma the ground state energy is determined (C75_ground_even); the value returned is the ground state energy if |gamma| <= 1 (C75_ground) and too large otherwise (C75_ground_large; the documented claim for all gamma is refuted in C75_ground_refuted)"
  },
  {
   "property": "C76",
   "status": "proved",
   "theorems": [
    "C76_get",
    "C76_transpose",
    "C76_sum",
    "C76_sum_sites",
    "C76_sum_length",
    "C76_add_one",
    "C76_add_many",
    "C76_add_refuted",
    "C76_lengths",
    "C76_dot_number",
    "C76_dot",
    "C76_inner",
    "C76_partialtrace",
    "C76_trace",
    "C76_diag",
    "C76_diag_negative",
    "C76_transpose_negative",
    "C76_update_slice",
    "C76_update_step",
    "C76_embed",
    "C76_lists",
    "C76_block_diag"
   ],
   "note": "the errors are those of the listed functions on valid local tensors; the claim that arrays of different shapes cannot be added is refuted in C76_add_refuted"
  },
  {
   "property": "C77",
   "status": "proved",
   "theorems": [
    "C77_update",
    "C77_canonicalize",
    "C77_norm",
    "C77_compress",
    "C77_singularvals",
    "C77_compress_refuted"
   ],
   "note": "methods modelled: lt.update, canonicalize, norm, compress(svd), singularvals; that an interrupted compress leaves the represented array unchanged is refuted in C77_compress_refuted"
  },
  {
   "property": "C78",
   "status": "proved",
   "theorems": [
    "C78_cuts",
    "C78_rank",
    "C78_two_sites",
    "C78_relerr"
   ],
   "note": "complex arrays; the object is canonicalised first (canonicalize=True); exact arithmetic"
  },
  {
   "property": "C79",
   "status": "proved",
   "theorems": [
    "C79_rank",
    "C79_relerr",
    "C79_reference",
    "C79_ties_refuted",
    "C79_projectors_left",
    "C79_projectors_refuted",
    "C79_values"
   ],
   "note": "complex arrays, exact arithmetic; without the separation of the values the claim is false: C79_ties_refuted; the projectors of the reference are lost for direction=left: C79_projectors_refuted"
  },
  {
   "property": "C80",
   "status": "proved",
   "theorems": [
    "C80_value",
    "C80_sum_value",
    "C80_untruncated",
    "C80_truncated",
    "C80_range",
    "C80_improves",
    "C80_several_sites_refuted"
   ],
   "note": "exact arithmetic; the start vector must carry a true canonical form; that the value is the expectation value of the returned vector with several sites is refuted in C80_several_sites_refuted"
  },
  {
   "property": "C81",
   "status": "proved",
   "theorems": [
    "C81_update",
    "C81_start",
    "C81_sweeps",
    "C81_exact_start",
    "C81_after_svd",
    "C81_three_sites_refuted"
   ],
   "note": "exact arithmetic; var_sites 1 or 2 (three sites: C81_three_sites_refuted)"
  },
  {
   "property": "C82",
   "status": "proved",
   "theorems": [
    "C82_below",
    "C82_minimal",
    "C82_unique",
    "C82_singularvals",
    "C82_rank_refuted"
   ],
   "note": "exact arithmetic"
  },
  {
   "property": "C83",
   "status": "proved",
   "theorems": [
    "C83_norm",
    "C83_cauchy_schwarz",
    "C83_norm_add",
    "C83_norm_mul",
    "C83_normdist",
    "C83_normdist_symmetric",
    "C83_normdist_triangle",
    "C83_norm_lipschitz",
    "C83_alternative"
   ],
   "note": "exact arithmetic"
  },
  {
   "property": "C84",
   "status": "proved",
   "theorems": [
    "C84_spectrum",
    "C84_eigen",
    "C84_purity"
   ],
   "note": "exact arithmetic"
  },
  {
   "property": "C85",
   "status": "proved",
   "theorems": [
    "C85_energy"
   ],
   "note": "default embedding (identity), equal local dimensions as local_sum requires"
  },
  {
   "property": "C86",
   "status": "proved",
   "theorems": [
    "C86_associative",
    "C86_composition",
    "C86_identity",
    "C86_adjoint_product",
    "C86_adjoint_twice",
    "C86_adjoint_inner",
    "C86_trace_cyclic",
    "C86_hilbert_schmidt",
    "C86_trace_prod",
    "C86_distributive",
    "C86_trace_linear",
    "C86_tensor",
    "C86_trace_tensor"
   ],
   "note": "entrywise equality; the ranks of the two sides differ in general"
  },
  {
   "property": "C87",
   "status": "proved",
   "theorems": [
    "C87_mpo",
    "C87_mpo_positive",
    "C87_mpo_nested",
    "C87_mps",
    "C87_pmps",
    "C87_pmps_norm",
    "C87_expectation_real",
    "C87_expectation_positive"
   ],
   "note": "positivity of reductions_pmps follows with pmps_to_mpo"
  },
  {
   "property": "C88",
   "status": "proved",
   "theorems": [
    "C88_gram",
    "C88_conjugation",
    "C88_cone",
    "C88_trace_product",
    "C88_tensor"
   ],
   "note": ""
  }
 ]
}