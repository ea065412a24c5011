{
 "claims": [
  {
   "property": "C01",
   "status": "proved",
   "theorems": [
    "c01_findcross_exact"
   ],
   "note": "Proved for the model."
  },
  {
   "property": "C02",
   "status": "proved",
   "theorems": [
    "c02_crossings_alternate",
    "c02_kind_u",
    "c02_kind_d"
   ],
   "note": "Proved for the model."
  },
  {
   "property": "C03",
   "status": "proved",
   "theorems": [
    "c03_wave_kinds",
    "c03_unknown_kind"
   ],
   "note": "Proved for the model."
  },
  {
   "property": "C04",
   "status": "proved",
   "theorems": [
    "c04_c_equals_python"
   ],
   "note": "Proved for the model."
  },
  {
   "property": "C05",
   "status": "proved",
   "theorems": [
    "c05_findextrema_exact",
    "c05_findextrema_monotone_between"
   ],
   "note": "Proved for the model."
  },
  {
   "property": "C06",
   "status": "proved",
   "theorems": [
    "c06_findtp_total",
    "c06_findtp_none",
    "c06_findtp_turning_points",
    "c06_initial_plateau_refuted",
    "c06_negative_h",
    "c06_findtp_astm"
   ],
   "note": "The property as stated fails for this code; refuted by c06_initial_plateau_refuted; the correct part is proved."
  },
  {
   "property": "C07",
   "status": "proved",
   "theorems": [
    "c07_findtp_wave"
   ],
   "note": "Proved for the model."
  },
  {
   "property": "C08",
   "status": "proved",
   "theorems": [
    "c08_findtc_default",
    "c08_findtc_wave",
    "c08_findtc_few",
    "c08_kind_all_refuted"
   ],
   "note": "The property as stated fails for this code; refuted by c08_kind_all_refuted; the correct part is proved."
  },
  {
   "property": "C09",
   "status": "proved",
   "theorems": [
    "c09_ecross_line",
    "c09_ecross_pointwise",
    "c09_ecross_range"
   ],
   "note": "Proved for the model."
  },
  {
   "property": "C10",
   "status": "proved",
   "theorems": [
    "c10_rfcfilter_correct",
    "c10_last_leg_refuted",
    "c10_constant_refuted"
   ],
   "note": "Proved for 0 < h + method; findings: last leg of range exactly h dropped by method 0 (c10_last_leg_refuted), constant signal with h=0 method 1 (c10_constant_refuted)."
  },
  {
   "property": "C11",
   "status": "proved",
   "theorems": [
    "c11_rfcfilter_idempotent",
    "c11_idempotent_refuted"
   ],
   "note": "True for method 1 and for method 0 unless the last kept leg has range exactly h; that exception is a counterexample (c11_idempotent_refuted)."
  },
  {
   "property": "C12",
   "status": "proved",
   "theorems": [
    "c12_findrfc_rainflow",
    "c12_rainflow_min_unique",
    "c12_rainflow_min_injective",
    "c12_findrfc_user",
    "c12_findtp_threshold",
    "c12_alternating"
   ],
   "note": "Proved for the model."
  },
  {
   "property": "C13",
   "status": "proved",
   "theorems": [
    "c13_out_of_bounds_refuted",
    "c13_value_read_is_irrelevant",
    "c13_indices_inside",
    "c13_two_points_refuted"
   ],
   "note": "The claim is false for even lengths (c13_out_of_bounds_refuted); proved instead: the word read behind the array never influences the result and no index outside the input is reported."
  },
  {
   "property": "C14",
   "status": "proved",
   "theorems": [
    "c14_c_equals_numba",
    "c14_c_leading_maximum"
   ],
   "note": "Proved for the model."
  },
  {
   "property": "C15",
   "status": "proved",
   "theorems": [
    "c15_astm_conserves_crossings",
    "c15_repeated_values_refuted"
   ],
   "note": "The property as stated fails for this code; refuted by c15_repeated_values_refuted; the correct part is proved."
  },
  {
   "property": "C16",
   "status": "proved",
   "theorems": [
    "c16_astm_rows_exact",
    "c16_repeated_values_refuted"
   ],
   "note": "The property as stated fails for this code; refuted by c16_repeated_values_refuted; the correct part is proved."
  },
  {
   "property": "C17",
   "status": "proved",
   "theorems": [
    "c17_times_do_not_matter",
    "c17_rows_are_input_pairs"
   ],
   "note": "Proved for the model."
  },
  {
   "property": "C18",
   "status": "proved",
   "theorems": [
    "c18_cycle_pairs",
    "c18_filtered_too_short_refuted"
   ],
   "note": "The property as stated fails for this code; refuted by c18_filtered_too_short_refuted; the correct part is proved."
  },
  {
   "property": "C19",
   "status": "proved",
   "theorems": [
    "c19_get_after_set",
    "c19_other_bits_kept",
    "c19_set_own_bit",
    "c19_last_set_wins",
    "c19_sets_commute",
    "c19_getbit_digit"
   ],
   "note": "Proved for the model."
  },
  {
   "property": "C20",
   "status": "proved",
   "theorems": [
    "c20_setbits_getbits",
    "c20_getbits_setbits",
    "c20_setbits_value"
   ],
   "note": "Proved for the model."
  },
  {
   "property": "C21",
   "status": "proved",
   "theorems": [
    "c21_cmat2nt",
    "c21_kinds_agree",
    "c21_other_kinds_raise"
   ],
   "note": "Proved for the model."
  },
  {
   "property": "C22",
   "status": "proved",
   "theorems": [
    "c22_nt2cmat_cmat2nt",
    "c22_cmat2nt_nt2cmat"
   ],
   "note": "Proved for the model."
  },
  {
   "property": "C23",
   "status": "proved",
   "theorems": [
    "c23_fr2nt_refuted",
    "c23_nt2fr_correct_iff",
    "c23_nt2fr_refuted"
   ],
   "note": "The property as stated fails for this code; refuted by c23_fr2nt_refuted, c23_nt2fr_refuted; the correct part is proved."
  },
  {
   "property": "C24",
   "status": "proved",
   "theorems": [
    "c24_plotscale_below_800",
    "c24_plotscale_from_800",
    "c24_transform_applied",
    "c24_roundtrip",
    "c24_roundtrip_refuted",
    "c24_id8_refuted",
    "c24_plottype_domain"
   ],
   "note": "The property as stated fails for this code; refuted by c24_roundtrip_refuted, c24_id8_refuted; the correct part is proved."
  },
  {
   "property": "C25",
   "status": "proved",
   "theorems": [
    "c25_every_cycle_counted_once",
    "c25_nearest_level_refuted",
    "c25_position_independent_refuted"
   ],
   "note": "The property as stated fails for this code; refuted by c25_nearest_level_refuted, c25_position_independent_refuted; the correct part is proved."
  },
  {
   "property": "C26",
   "status": "proved",
   "theorems": [
    "c26_level_crossings_numbers",
    "c26_names_refuted",
    "c26_negative_extremes_refuted"
   ],
   "note": "The property as stated fails for this code; refuted by c26_names_refuted, c26_negative_extremes_refuted; the correct part is proved."
  },
  {
   "property": "C27",
   "status": "proved",
   "theorems": [
    "c27_periods_first_crossing_up",
    "c27_crossing_periods_positive",
    "c27_first_crossing_down_refuted",
    "c27_extreme_periods_refuted"
   ],
   "note": "The property as stated fails for this code; refuted by c27_first_crossing_down_refuted, c27_extreme_periods_refuted; the correct part is proved."
  },
  {
   "property": "C28",
   "status": "proved",
   "theorems": [
    "c28_polyder",
    "c28_derivative_unique",
    "c28_negative_order"
   ],
   "note": "Proved for the model."
  },
  {
   "property": "C29",
   "status": "proved",
   "theorems": [
    "c29_polyint",
    "c29_too_few_constants"
   ],
   "note": "Proved for the model."
  },
  {
   "property": "C30",
   "status": "proved",
   "theorems": [
    "c30_polyreloc",
    "c30_integer_coefficients_refuted"
   ],
   "note": "The property as stated fails for this code; refuted by c30_integer_coefficients_refuted; the correct part is proved."
  },
  {
   "property": "C31",
   "status": "proved",
   "theorems": [
    "c31_polyrescl"
   ],
   "note": "Proved for the model."
  },
  {
   "property": "C32",
   "status": "proved",
   "theorems": [
    "c32_polyshift",
    "c32_polyishift",
    "c32_ishift_undoes_shift",
    "c32_shift_undoes_ishift",
    "c32_interval_maps"
   ],
   "note": "Proved for the model."
  },
  {
   "property": "C33",
   "status": "proved",
   "theorems": [
    "c33_polytrim",
    "c33_value_unchanged",
    "c33_matrix"
   ],
   "note": "Proved for the model."
  },
  {
   "property": "C34",
   "status": "proved",
   "theorems": [
    "c34_ortho2poly"
   ],
   "note": "Proved for the model."
  },
  {
   "property": "C35",
   "status": "proved",
   "theorems": [
    "c35_chebval",
    "c35_empty",
    "c35_first_kind",
    "c35_second_kind",
    "c35_chebpoly",
    "c35_fill",
    "c35_integer_fill_refuted"
   ],
   "note": "The property as stated fails for this code; refuted by c35_integer_fill_refuted; the correct part is proved."
  },
  {
   "property": "C36",
   "status": "proved",
   "theorems": [
    "c36_cheb2poly",
    "c36_poly2cheb",
    "c36_round_trip"
   ],
   "note": "Proved for the model."
  },
  {
   "property": "C37",
   "status": "proved",
   "theorems": [
    "c37_chebder_error_term",
    "c37_chebder_refuted",
    "c37_short_refuted"
   ],
   "note": "The property as stated fails for this code; refuted by c37_chebder_refuted, c37_short_refuted; the correct part is proved."
  },
  {
   "property": "C38",
   "status": "proved",
   "theorems": [
    "c38_chebint_refuted"
   ],
   "note": "Refuted by c38_chebint_refuted"
  },
  {
   "property": "C39",
   "status": "proved",
   "theorems": [
    "c39_chebroot_first",
    "c39_chebroot_second",
    "c39_other_kinds",
    "c39_chebextr"
   ],
   "note": "Proved for the model."
  },
  {
   "property": "C40",
   "status": "proved",
   "theorems": [
    "c40_samples",
    "c40_callable",
    "c40_chebinterpolate"
   ],
   "note": "Proved for the model."
  },
  {
   "property": "C41",
   "status": "proved",
   "theorems": [
    "c41_piece",
    "c41_first_break",
    "c41_outside",
    "c41_derivative",
    "c41_left_closed_refuted",
    "c41_integer_points_refuted",
    "c41_constant_derivative_refuted"
   ],
   "note": "The property as stated fails for this code; refuted by c41_left_closed_refuted, c41_integer_points_refuted, c41_constant_derivative_refuted; the correct part is proved."
  },
  {
   "property": "C42",
   "status": "proved",
   "theorems": [
    "c42_integrate",
    "c42_derivative_of_integral"
   ],
   "note": "Proved for the model."
  },
  {
   "property": "C43",
   "status": "proved",
   "theorems": [
    "c43_system",
    "c43_minimizes",
    "c43_interpolates",
    "c43_straight_line",
    "c43_parameter",
    "c43_two_points_refuted",
    "c43_any_order",
    "c43_variances_not_sorted_refuted"
   ],
   "note": "The property as stated fails for this code; refuted by c43_two_points_refuted, c43_variances_not_sorted_refuted; the correct part is proved."
  },
  {
   "property": "C44",
   "status": "proved",
   "theorems": [
    "c44_given_slopes",
    "c44_estimated_slopes",
    "c44_pchip",
    "c44_unsorted"
   ],
   "note": "Proved for the model."
  },
  {
   "property": "C45",
   "status": "proved",
   "theorems": [
    "c45_steffen",
    "c45_decreasing_refuted",
    "c45_flat_end_refuted",
    "c45_two_points_refuted"
   ],
   "note": "Inner segments and increasing data proved; decreasing data, flat end and two points are counterexamples (c45_*_refuted)."
  },
  {
   "property": "C46",
   "status": "proved",
   "theorems": [
    "c46_exact",
    "c46_point_count_refuted"
   ],
   "note": "Exact for degree <= 5 on 4k+1 points; other numbers of points are refuted."
  },
  {
   "property": "C47",
   "status": "proved",
   "theorems": [
    "c47_expand",
    "c47_single_node_refuted",
    "c47_any_interval"
   ],
   "note": "n = 1 is a counterexample."
  },
  {
   "property": "C48",
   "status": "proved",
   "theorems": [
    "c48_system",
    "c48_optimal",
    "c48_line",
    "c48_moments",
    "c48_smooth",
    "c48_three_points_refuted"
   ],
   "note": "Three samples are a counterexample (c48_three_points_refuted). spsolve is a parameter that solves every system with exactly one solution; c48_system shows this is one."
  },
  {
   "property": "C49",
   "status": "proved",
   "theorems": [
    "c49_running_mean",
    "c49_variance",
    "c49_update",
    "c49_session",
    "c49_tracking",
    "c49_reset_refuted"
   ],
   "note": "reset() is a counterexample (c49_reset_refuted). Proved over every ordered field."
  },
  {
   "property": "C50",
   "status": "proved",
   "theorems": [
    "c50_fixed",
    "c50_median",
    "c50_range",
    "c50_units",
    "c50_default_width",
    "c50_adaptive_total",
    "c50_adaptive_refuted",
    "c50_single",
    "c50_single_refuted",
    "c50_width"
   ],
   "note": "The adaptive search with narrow windows and a single sample without dx are counterexamples."
  },
  {
   "property": "C51",
   "status": "proved",
   "theorems": [
    "c51_counts",
    "c51_mass",
    "c51_moments",
    "c51_nonnegative",
    "c51_scalar"
   ],
   "note": "Counts, mass, all multilinear moments and signs, in any dimension."
  },
  {
   "property": "C52",
   "status": "proved",
   "theorems": [
    "c52_upper_edge_refuted",
    "c52_double_count_refuted"
   ],
   "note": "The property as a user expects it is false; the refutation holds for every grid and data set. The half-open box is covered by c51_counts."
  },
  {
   "property": "C53",
   "status": "proved",
   "theorems": [
    "c53_groups",
    "c53_total",
    "c53_partition",
    "c53_sum",
    "c53_default_shape",
    "c53_accumsum",
    "c53_shape_refuted"
   ],
   "note": "c53_shape_refuted: accumsum ignores a shape that is too small."
  },
  {
   "property": "C54",
   "status": "proved",
   "theorems": [
    "c54_bounds",
    "c54_score",
    "c54_nested",
    "c54_credible"
   ],
   "note": "Proved for the model."
  },
  {
   "property": "C55",
   "status": "proved",
   "theorems": [
    "c55_quotient",
    "c55_denominator",
    "c55_zero_denominator",
    "c55_bounded_terms"
   ],
   "note": "Proved for the model."
  },
  {
   "property": "C56",
   "status": "proved",
   "theorems": [
    "c56_ids",
    "c56_names",
    "c56_case_insensitive",
    "c56_typeid_lists",
    "c56_type_lists",
    "c56_unknown_ids",
    "c56_unknown_names_refuted"
   ],
   "note": "Round trip of the nan id of unknown names refuted (c56_unknown_names_refuted)."
  },
  {
   "property": "C57",
   "status": "proved",
   "theorems": [
    "c57_k2w",
    "c57_deep_wavenumber",
    "c57_deep_frequency",
    "c57_w2k",
    "c57_unique",
    "c57_exists",
    "c57_error",
    "c57_finite_roundtrip",
    "c57_empty_refuted",
    "c57_two_constants"
   ],
   "note": "Empty input refuted (c57_empty_refuted). Convergence of the Newton iteration itself is not claimed: the theorem is conditional on no warning."
  },
  {
   "property": "C58",
   "status": "proved",
   "theorems": [
    "c58_linear",
    "c58_linear_roundtrip",
    "c58_linear_roundtrip_back",
    "c58_linear_derivative",
    "c58_linear_is_gaussian",
    "c58_distance",
    "c58_ochi",
    "c58_ochi_roundtrip",
    "c58_ochi_derivatives",
    "c58_stale_refuted"
   ],
   "note": "Exact reals; brentq is a parameter assumed to return a root in its interval (existence and uniqueness proved in c59_root). Stale parameters: c58_stale_refuted."
  },
  {
   "property": "C59",
   "status": "proved",
   "theorems": [
    "c59_root",
    "c59_accepted",
    "c59_equations",
    "c59_mean_refuted"
   ],
   "note": "The equation for mean2 is refuted for every non-zero skewness (c59_mean_refuted)."
  },
  {
   "property": "C60",
   "status": "proved",
   "theorems": [
    "c60_inverse",
    "c60_cardano",
    "c60_accepted",
    "c60_hardening_accepted",
    "c60_hardening_parameters",
    "c60_parameters_1988",
    "c60_parameters_1994",
    "c60_moments",
    "c60_quadratic",
    "c60_derivatives",
    "c60_folds_refuted",
    "c60_limit_refuted"
   ],
   "note": "Exact reals; eps is the machine precision as a positive parameter. Non-monotone cubics raise TypeError (c60_accepted); two refuted claims about the limit check."
  },
  {
   "property": "C61",
   "status": "proved",
   "theorems": [
    "c61_ok_peaks"
   ],
   "note": "Proved for the model."
  },
  {
   "property": "C62",
   "status": "proved",
   "theorems": [
    "c62_total",
    "c62_one_cluster",
    "c62_last_of_first_cluster",
    "c62_later_clusters_lost",
    "c62_documented_refuted",
    "c62_decluster"
   ],
   "note": "The documented behaviour holds with at most one cluster; with more it is refuted (c62_documented_refuted) and what happens is proved in general."
  },
  {
   "property": "C63",
   "status": "proved",
   "theorems": [
    "c63_probability_roundtrip",
    "c63_period_roundtrip",
    "c63_nan",
    "c63_decreasing",
    "c63_entrywise",
    "c63_one_event_refuted",
    "c63_types_refuted"
   ],
   "note": "Exceptions proved: c63_one_event_refuted, c63_types_refuted."
  },
  {
   "property": "C64",
   "status": "proved",
   "theorems": [
    "c64_estimate",
    "c64_biased",
    "c64_variance",
    "c64_biased_refuted",
    "c64_largest_at_zero",
    "c64_shift_invariant",
    "c64_scale_squared",
    "c64_deviations",
    "c64_default_lag",
    "c64_normalized",
    "c64_normalized_constant_refuted",
    "c64_missing_values",
    "c64_missing_values_refuted",
    "c64_missing_first_refuted"
   ],
   "note": "The property as stated fails for this code; refuted by c64_biased_refuted, c64_normalized_constant_refuted, c64_missing_values_refuted, c64_missing_first_refuted; the correct part is proved."
  },
  {
   "property": "C65",
   "status": "proved",
   "theorems": [
    "c65_unbiased_refuted",
    "c65_unbiased_named_refuted"
   ],
   "note": "Refuted by c65_unbiased_refuted, c65_unbiased_named_refuted"
  },
  {
   "property": "C66",
   "status": "proved",
   "theorems": [
    "c66_lfind_all",
    "c66_lfind_first",
    "c66_narg_smallest",
    "c66_narg_smallest_negative",
    "c66_argsreduce",
    "c66_argsreduce_lengths",
    "c66_argsreduce_mismatch"
   ],
   "note": "Proved for the model."
  },
  {
   "property": "C67",
   "status": "proved",
   "theorems": [
    "c67_piecewise",
    "c67_piecewise_otherwise",
    "c67_piecewise_count",
    "c67_lazywhere_fill",
    "c67_lazywhere_f2",
    "c67_lazywhere_arguments",
    "c67_lazywhere_integer_fill_refuted",
    "c67_lazyselect",
    "c67_lazyselect_first_refuted"
   ],
   "note": "lazyselect taking the first choice, and exact values with an integer fill value, are refuted."
  },
  {
   "property": "C68",
   "status": "proved",
   "theorems": [
    "c68_rotation_matrix",
    "c68_rotate",
    "c68_rotate_isometry",
    "c68_rotate_2d_heading",
    "c68_rotate_2d_length",
    "c68_rotate_2d_add",
    "c68_rotate_2d_turn"
   ],
   "note": "Proved for the model."
  },
  {
   "property": "C69",
   "status": "proved",
   "theorems": [
    "c69_sub2index",
    "c69_sub2index_outside",
    "c69_index2sub",
    "c69_index2sub_outside",
    "c69_index_sub_index",
    "c69_sub_index_sub"
   ],
   "note": "Proved for the model."
  },
  {
   "property": "C70",
   "status": "proved",
   "theorems": [
    "c70_moving_average",
    "c70_straight_line",
    "c70_short",
    "c70_window_positive",
    "c70_window_mean_refuted",
    "c70_integer_refuted",
    "c70_detrendma",
    "c70_detrendma_line"
   ],
   "note": "The mean of the 2L+1 surrounding samples is refuted (c70_window_mean_refuted, c70_integer_refuted); what is computed is proved."
  },
  {
   "property": "C71",
   "status": "proved",
   "theorems": [
    "c71_findoutliers",
    "c71_too_short",
    "c71_single_outlier_refuted",
    "c71_missing_refuted",
    "c71_first_missing_refuted"
   ],
   "note": "Disjointness fails for a single suspicious sample, and missing samples may be classified as good (three refuted theorems)."
  },
  {
   "property": "C72",
   "status": "proved",
   "theorems": [
    "c72_sub_dict_select",
    "c72_parse_kwargs"
   ],
   "note": "Proved for the model."
  },
  {
   "property": "C73",
   "status": "proved",
   "theorems": [
    "c73_nextpow2",
    "c73_nextpow2_zero",
    "c73_nextpow2_vector"
   ],
   "note": "Proved for the model."
  },
  {
   "property": "C74",
   "status": "proved",
   "theorems": [
    "c74_count",
    "c74_points",
    "c74_degree_zero",
    "c74_distinct",
    "c74_inside",
    "c74_mask",
    "c74_mask_count",
    "c74_every_coefficient",
    "c74_values_only",
    "c74_values_recovered",
    "c74_degree_zero_refuted"
   ],
   "note": "Points and fit of padua.py over the reals; degree 0 fails (refuted)."
  },
  {
   "property": "C75",
   "status": "proved",
   "theorems": [
    "c75_shift",
    "c75_undone",
    "c75_compose",
    "c75_period",
    "c75_elements",
    "c75_determined",
    "c75_pad",
    "c75_drop",
    "c75_drop_then_pad",
    "c75_pad_then_drop",
    "c75_singletons_refuted"
   ],
   "note": "All ranks; the all-singleton case of n=None is refuted."
  },
  {
   "property": "C76",
   "status": "proved",
   "theorems": [
    "c76_tospecdata_refuted",
    "c76_tospecdata_default",
    "c76_edf",
    "c76_edf_unchanged",
    "c76_edf_list",
    "c76_edf_refuted",
    "c76_edfcnd",
    "c76_smoothn",
    "c76_smoothn_finite",
    "c76_smoothn_list",
    "c76_smoothn_weights",
    "c76_smoothn_refuted",
    "c76_simcond",
    "c76_simcond_kept",
    "c76_simcond_list",
    "c76_simcond_range",
    "c76_simcond_refuted",
    "c76_simcond_covariances",
    "c76_simcond_object_refuted",
    "c76_mctp2tc",
    "c76_mctp2tc_range",
    "c76_mctp2tc_refuted"
   ],
   "note": "The functions are modelled with the argument as the caller finds it afterwards; what they return is a parameter, except for edf and edfcnd. Contiguous vectors of floats share their memory, lists and tuples do not. simcond is modelled with method='exact'; method='approx' also writes the simulated values into the array. Indices from the end and a single weight are left out."
  },
  {
   "property": "C77",
   "status": "proved",
   "theorems": [
    "c77_iter_nonnegative",
    "c77_iter_consistent",
    "c77_iter_fixpoint"
   ],
   "note": "Proved for the model."
  },
  {
   "property": "C78",
   "status": "proved",
   "theorems": [
    "c78_mktestmat_support",
    "c78_diagonal_zero_refuted"
   ],
   "note": "The property as stated fails for this code; refuted by c78_diagonal_zero_refuted; the correct part is proved."
  },
  {
   "property": "C79",
   "status": "proved",
   "theorems": [
    "c79_orthofit_least_squares"
   ],
   "note": "Proved for the model."
  },
  {
   "property": "C80",
   "status": "proved",
   "theorems": [
    "c80_call",
    "c80_trailing_zero_refuted",
    "c80_arithmetic_refuted"
   ],
   "note": "The property as stated fails for this code; refuted by c80_trailing_zero_refuted, c80_arithmetic_refuted; the correct part is proved."
  },
  {
   "property": "C81",
   "status": "proved",
   "theorems": [
    "c81_linear_extrapolate",
    "c81_piecewise_linear_refuted",
    "c81_derivative_refuted"
   ],
   "note": "The property as stated fails for this code; refuted by c81_piecewise_linear_refuted, c81_derivative_refuted; the correct part is proved."
  },
  {
   "property": "C82",
   "status": "proved",
   "theorems": [
    "c82_straight_line",
    "c82_parabola",
    "c82_akima_between",
    "c82_akima_collinear",
    "c82_two_points_refuted"
   ],
   "note": "Proved for at least three points; two points and falling lines with Steffen (c45_decreasing_refuted) are counterexamples."
  },
  {
   "property": "C83",
   "status": "proved",
   "theorems": [
    "c83_monotone",
    "c83_wrong_sign_refuted",
    "c83_neighbours_refuted"
   ],
   "note": "Proved under the two stated conditions; each is shown necessary by a counterexample."
  },
  {
   "property": "C84",
   "status": "proved",
   "theorems": [
    "c84_bounded",
    "c84_convex",
    "c84_parabola_convex",
    "c84_parabola_increasing_refuted",
    "c84_two_points_refuted"
   ],
   "note": "Proved; the docstring's claims for method parabola and the two point case are refuted."
  },
  {
   "property": "C85",
   "status": "proved",
   "theorems": [
    "c85_cart_polar_cart",
    "c85_polar_cart_polar",
    "c85_spaceline",
    "c85_spaceline_ends",
    "c85_spaceline_single"
   ],
   "note": "Proved for the model."
  },
  {
   "property": "C86",
   "status": "proved",
   "theorems": [
    "c86_chebyshev_first",
    "c86_chebyshev_second",
    "c86_ratio",
    "c86_inverse_root",
    "c86_root"
   ],
   "note": "Proved for the model."
  },
  {
   "property": "C87",
   "status": "proved",
   "theorems": [
    "c87_exact",
    "c87_integer_integrand_refuted"
   ],
   "note": "Integer integrands are a counterexample (c87_integer_integrand_refuted)."
  },
  {
   "property": "C88",
   "status": "proved",
   "theorems": [
    "c88_exact",
    "c88_estimate",
    "c88_jacobi",
    "c88_jacobi_documented_refuted",
    "c88_integer_refuted"
   ],
   "note": "wfun = 4 as documented and integer integrands are counterexamples; the Gauss rules for wfun 1, 4 (root finders by Newton iteration) enter as a hypothesis, those for wfun 5-9 are proved exact in C86."
  },
  {
   "property": "C89",
   "status": "proved",
   "theorems": [
    "c89_elementwise"
   ],
   "note": "Proved for the model."
  },
  {
   "property": "C90",
   "status": "proved",
   "theorems": [
    "c90_history",
    "c90_digits_refuted"
   ],
   "note": "More than six significant digits are a counterexample (c90_digits_refuted)."
  },
  {
   "property": "C91",
   "status": "proved",
   "theorems": [
    "c91_error",
    "c91_nan_refuted"
   ],
   "note": "NaN at a node is a counterexample (c91_nan_refuted)."
  },
  {
   "property": "C92",
   "status": "proved",
   "theorems": [
    "c92_exact",
    "c92_composite",
    "c92_reverse",
    "c92_one_iteration_refuted",
    "c92_integer_refuted",
    "c92_zero_tolerance_refuted"
   ],
   "note": "One iteration, integer integrands and zero tolerance are counterexamples."
  },
  {
   "property": "C93",
   "status": "proved",
   "theorems": [
    "c93_upward",
    "c93_downward",
    "c93_whole_line"
   ],
   "note": "Proved for the model."
  },
  {
   "property": "C94",
   "status": "proved",
   "theorems": [
    "c94_geometric",
    "c94_bounded"
   ],
   "note": "Proved for the model."
  },
  {
   "property": "C95",
   "status": "proved",
   "theorems": [
    "c95_exact",
    "c95_table",
    "c95_short_interval_refuted"
   ],
   "note": "Intervals of length at most 1.5 are a counterexample (TypeError); dea3 is a parameter."
  },
  {
   "property": "C96",
   "status": "proved",
   "theorems": [
    "c96_value",
    "c96_value_1d",
    "c96_wrong_dimension"
   ],
   "note": "Proved for the model."
  },
  {
   "property": "C97",
   "status": "proved",
   "theorems": [
    "c97_fast",
    "c97_nodes",
    "c97_error",
    "c97_inverse"
   ],
   "note": "Proved for the model."
  },
  {
   "property": "C98",
   "status": "proved",
   "theorems": [
    "c98_range",
    "c98_least_squares",
    "c98_line"
   ],
   "note": "Proved for the model."
  },
  {
   "property": "C99",
   "status": "proved",
   "theorems": [
    "c99_grid",
    "c99_extremes",
    "c99_probability"
   ],
   "note": "Proved for the model."
  },
  {
   "property": "C100",
   "status": "proved",
   "theorems": [
    "c100_gaps",
    "c100_extremal_index",
    "c100_declustering_time",
    "c100_few",
    "c100_real_times_refuted"
   ],
   "note": "For integer-valued times; refuted for others (c100_real_times_refuted)."
  },
  {
   "property": "C101",
   "status": "proved",
   "theorems": [
    "c101_sorted",
    "c101_increasing",
    "c101_empirical",
    "c101_conditional"
   ],
   "note": "Proved for the model."
  },
  {
   "property": "C102",
   "status": "proved",
   "theorems": [
    "c102_mean_excess",
    "c102_default_thresholds",
    "c102_ties_refuted",
    "c102_dispersion"
   ],
   "note": "Default-threshold count refuted with ties (c102_ties_refuted)."
  },
  {
   "property": "C103",
   "status": "proved",
   "theorems": [
    "c103_linear_theory",
    "c103_time_derivatives",
    "c103_space_derivatives",
    "c103_incompressible",
    "c103_irrotational",
    "c103_momentum",
    "c103_boundaries",
    "c103_default_angles",
    "c103_default_depth_refuted",
    "c103_negative_refuted",
    "c103_names",
    "c103_ids_refuted",
    "c103_pressure"
   ],
   "note": "Finite depth, exact reals; three refuted cases: default depth, negative Hw, integer sensor ids."
  },
  {
   "property": "C104",
   "status": "proved",
   "theorems": [
    "c104_interpolates",
    "c104_resampled",
    "c104_range_and_order",
    "c104_lines_are_exact",
    "c104_order_of_rows",
    "c104_derivatives",
    "c104_chain_rule",
    "c104_fourth_derivative_refuted",
    "c104_derivatives_of_lines",
    "c104_duplicates",
    "c104_single_point",
    "c104_fine_table_refuted",
    "c104_above_refuted",
    "c104_below_refuted",
    "c104_table_points_refuted",
    "c104_trdata_statistics",
    "c104_trdata_roundtrip"
   ],
   "note": "Proved for points inside the table; what happens outside, for fine tables, for the points of uneven tables and for the fourth derivative is stated by the _refuted theorems."
  },
  {
   "property": "C105",
   "status": "proved",
   "theorems": [
    "c105_covariance",
    "c105_variance",
    "c105_variance_largest",
    "c105_from_zero",
    "c105_uneven"
   ],
   "note": "Proved for the model."
  },
  {
   "property": "C106",
   "status": "proved",
   "theorems": [
    "c106_spectrum",
    "c106_roundtrip",
    "c106_roundtrip_back",
    "c106_roundtrip_refuted"
   ],
   "note": "Round trips hold exactly when the number of points is 2^e+1; for every other number the returned grid is finer (c106_roundtrip_refuted)."
  },
  {
   "property": "C107",
   "status": "proved",
   "theorems": [
    "c107_units_back",
    "c107_units_covariance",
    "c107_units_power"
   ],
   "note": "Proved for the model."
  },
  {
   "property": "C108",
   "status": "proved",
   "theorems": [
    "c108_values",
    "c108_exact",
    "c108_line",
    "c108_even",
    "c108_units",
    "c108_scale",
    "c108_nonneg",
    "c108_schwarz",
    "c108_names"
   ],
   "note": "Simpson's rule of scipy (even='avg') is part of the model."
  },
  {
   "property": "C109",
   "status": "proved",
   "theorems": [
    "c109_values",
    "c109_select",
    "c109_names_partial",
    "c109_eps4_refuted",
    "c109_default_refuted",
    "c109_unknown",
    "c109_units",
    "c109_bounds",
    "c109_normalize",
    "c109_normalize_hertz",
    "c109_normalize_refuted",
    "c109_wavenumber_refuted"
   ],
   "note": "the parts of the documentation that are false are the theorems c109_eps4_refuted, c109_default_refuted, c109_normalize_refuted and c109_wavenumber_refuted; c109_names_partial: all names except eps4 select the value of their documentation."
  },
  {
   "property": "C110",
   "status": "proved",
   "theorems": [
    "c110_values",
    "c110_energy_period",
    "c110_peak",
    "c110_peak_exists",
    "c110_peak_hertz",
    "c110_peak_refuted",
    "c110_groupiness",
    "c110_smooth_peak",
    "c110_variances",
    "c110_symmetric",
    "c110_covariance_partial",
    "c110_covariance_shifted",
    "c110_covariance_refuted",
    "c110_select",
    "c110_names",
    "c110_unknown",
    "c110_range",
    "c110_units"
   ],
   "note": "c110_covariance_partial: of the three covariances the table documents only Cov(Tm01, Tm02) is in its place; the two others are refuted by c110_covariance_refuted and c110_covariance_shifted says where they are stored. Rs (interpolation at three frequencies) and Tm_10 in Hz are modelled without a theorem."
  },
  {
   "property": "C111",
   "status": "proved",
   "theorems": [
    "c111_interpolates",
    "c111_reproduces",
    "c111_polynomial",
    "c111_unisolvent",
    "c111_linear",
    "c111_series",
    "c111_mesh",
    "c111_outside",
    "c111_estimate_zero",
    "c111_estimate_top_degree",
    "c111_estimate_zero_degree"
   ],
   "note": "Exact real arithmetic, FFT as the exact discrete Fourier sum. The error estimate is shown to read only the top degree."
  },
  {
   "property": "C112",
   "status": "proved",
   "theorems": [
    "c112_integral_of_interpolant",
    "c112_exact",
    "c112_constant"
   ],
   "note": "Iterated Riemann integral."
  },
  {
   "property": "C113",
   "status": "proved",
   "theorems": [
    "c113_energy",
    "c113_band",
    "c113_formula",
    "c113_peak",
    "c113_sign",
    "c113_units",
    "c113_accepts",
    "c113_rejects",
    "c113_gamma",
    "c113_gamma_one"
   ],
   "note": "exact real arithmetic; gammaln is any function with Euler's integral, shown to exist."
  },
  {
   "property": "C114",
   "status": "proved",
   "theorems": [
    "c114_energy",
    "c114_no_peak_enhancement",
    "c114_formula",
    "c114_shape",
    "c114_gamma",
    "c114_peakfact_range",
    "c114_peakfact_steep",
    "c114_peakfact_long",
    "c114_arguments",
    "c114_parametric_peak",
    "c114_parametric_range_refuted",
    "c114_seastate_refuted"
   ],
   "note": "quad is any exact integrator. c114_parametric_range_refuted and c114_seastate_refuted state what is false of the code."
  },
  {
   "property": "C115",
   "status": "proved",
   "theorems": [
    "c115_torsethaugen_accepts",
    "c115_torsethaugen_split",
    "c115_torsethaugen_energy",
    "c115_torsethaugen_cutoff_refuted",
    "c115_ochihubble_accepts",
    "c115_torsethaugen_sum",
    "c115_ochihubble_energy_refuted",
    "c115_ochihubble_unchecked",
    "c115_mccormick_energy",
    "c115_mccormick_best",
    "c115_mccormick_calm_refuted",
    "c115_wallop"
   ],
   "note": "c115_torsethaugen_cutoff_refuted, c115_ochihubble_energy_refuted and c115_mccormick_calm_refuted state what is false of the code."
  },
  {
   "property": "C116",
   "status": "proved",
   "theorems": [
    "c116_range",
    "c116_ratio",
    "c116_still",
    "c116_tma",
    "c116_tma_deep",
    "c116_wave_number"
   ],
   "note": "the wave number is a parameter that satisfies the dispersion relation; w2k itself is modelled in WaveModel."
  },
  {
   "property": "C117",
   "status": "proved",
   "theorems": [
    "c117_density",
    "c117_wrapped",
    "c117_angle",
    "c117_accepts",
    "c117_types",
    "c117_unknown_type",
    "c117_negative",
    "c117_wrapped_linspace_refuted",
    "c117_wrapped_first_angle",
    "c117_sech2_refuted"
   ],
   "note": "scipy gammaln and ive are parameters with their integral definition, the three root finders are parameters assumed to solve their equation. c117_wrapped_linspace_refuted and c117_sech2_refuted state what is false of the code."
  },
  {
   "property": "C118",
   "status": "proved",
   "theorems": [
    "c118_mitsuyasu",
    "c118_directional",
    "c118_full_circle",
    "c118_donelan_refuted",
    "c118_method_numbers",
    "c118_method_names_refuted"
   ],
   "note": "c118_donelan_refuted and c118_method_names_refuted state what is false of the code."
  },
  {
   "property": "C119",
   "status": "proved",
   "theorems": [
    "c119_integral",
    "c119_multi",
    "c119_product",
    "c119_nonneg",
    "c119_symmetric",
    "c119_exchangeable",
    "c119_support",
    "c119_norm_kernel",
    "c119_empty",
    "c119_gauss_radius_refuted"
   ],
   "note": "c119_gauss_radius_refuted: the Gaussian class is normalised for the radius 4 of the table only."
  },
  {
   "property": "C120",
   "status": "proved",
   "theorems": [
    "c120_moments",
    "c120_bending",
    "c120_infinite",
    "c120_triweight_refuted",
    "c120_normal_optimal",
    "c120_optimal"
   ],
   "note": "c120_triweight_refuted: the table says inf for a bending energy that is 35."
  },
  {
   "property": "C121",
   "status": "proved",
   "theorems": [
    "c121_density"
   ],
   "note": "Diagonal bandwidth matrices, evaluation at points."
  },
  {
   "property": "C122",
   "status": "proved",
   "theorems": [
    "c122_equivariant",
    "c122_exchangeable",
    "c122_exists",
    "c122_zero",
    "c122_bound",
    "c122_iqrange",
    "c122_hos"
   ],
   "note": "Proved for the model."
  },
  {
   "property": "C123",
   "status": "proved",
   "theorems": [
    "c123_derivatives",
    "c123_number",
    "c123_psi"
   ],
   "note": "Proved for the model."
  },
  {
   "property": "C124",
   "status": "proved",
   "theorems": [
    "c124_lookup",
    "c124_unknown",
    "c124_documented",
    "c124_name_refuted",
    "c124_hmns"
   ],
   "note": "c124_name_refuted: the name a kernel reports does not select it again."
  },
  {
   "property": "C125",
   "status": "proved",
   "theorems": [
    "c125_density",
    "c125_built",
    "c125_wrong_hs",
    "c125_alias_refuted",
    "c125_limits",
    "c125_limits_single_refuted",
    "c125_args",
    "c125_shape"
   ],
   "note": "c125_alias_refuted: bandwidths that are not positive are replaced in the array of the caller (and truncated if it holds integers); c125_limits_single_refuted: with one observation the default limits are nan. A full bandwidth matrix is not modelled."
  },
  {
   "property": "C126",
   "status": "proved",
   "theorems": [
    "c126_density",
    "c126_change",
    "c126_mass_refuted",
    "c126_single_refuted",
    "c126_integer_refuted",
    "c126_roundtrip",
    "c126_limits",
    "c126_none",
    "c126_grid",
    "c126_grid_order"
   ],
   "note": "c126_mass_refuted: with a power other than 0 and 1 the Gaussian estimate integrates to less than one; c126_single_refuted: one point raises ValueError; c126_integer_refuted: integer data are truncated after the transformation. The interpolation of _eval_grid_fast is not modelled."
  },
  {
   "property": "C127",
   "status": "proved",
   "theorems": [
    "c127_levels",
    "c127_cells",
    "c127_trapezoid",
    "c127_cells_plane",
    "c127_low_refuted",
    "c127_others_refuted",
    "c127_negative",
    "c127_percent",
    "c127_shape",
    "c127_empty",
    "c127_zero"
   ],
   "note": "Enclosure of the mass by the levels with an explicit bound, monotone levels, cell sizes in one and two dimensions, errors. c127_low_refuted: below the mass at the maximum the levels increase; c127_others_refuted: asking for 100 percent changes the other levels. Cells in three or more dimensions are modelled, but the formula for each cell is proved for one and two dimensions only."
  },
  {
   "property": "C128",
   "status": "proved",
   "theorems": [
    "c128_levels",
    "c128_positions",
    "c128_midpoint_refuted",
    "c128_errors"
   ],
   "note": "Range, monotonicity and counting bounds for every method, positions for methods 1, 3 and 4. c128_midpoint_refuted: method 2 averages the two neighbours instead of placing the k-th value at (k+0.5)/n."
  },
  {
   "property": "C129",
   "status": "proved",
   "theorems": [
    "c129_formula",
    "c129_shape",
    "c129_both",
    "c129_inverse",
    "c129_unscaled",
    "c129_padded",
    "c129_energy",
    "c129_any_pair",
    "c129_zero_length",
    "c129_wrong_count",
    "c129_axis_outside",
    "c129_negative_axes_refuted",
    "c129_documented_refuted"
   ],
   "note": "Separable formula for every number of axes, with and without shape and axes; round trips, padding, conservation of the sum of squares, errors. c129_negative_axes_refuted: axes counted from the end are ignored; c129_documented_refuted: the documented scaling of type 3 is not the inverse of type 2. scipy's row transforms are modelled by their sums; type 1 is left out, and the sine transforms are covered by c129_any_pair only."
  },
  {
   "property": "C130",
   "status": "proved",
   "theorems": [
    "c130_increasing",
    "c130_quantiles_increasing",
    "c130_whole_mass",
    "c130_interval",
    "c130_expon",
    "c130_weibull_min",
    "c130_weibull_max",
    "c130_exponweib",
    "c130_exponpow",
    "c130_gompertz",
    "c130_gumbel_r",
    "c130_gumbel_l",
    "c130_invweibull",
    "c130_genlogistic",
    "c130_logistic",
    "c130_genpareto",
    "c130_genextreme",
    "c130_pareto",
    "c130_lomax",
    "c130_burr",
    "c130_fisk",
    "c130_burr12",
    "c130_mielke",
    "c130_kappa3",
    "c130_powerlaw",
    "c130_uniform",
    "c130_rayleigh",
    "c130_truncrayleigh",
    "c130_reciprocal",
    "c130_truncexpon",
    "c130_bradford",
    "c130_genhalflogistic",
    "c130_halflogistic",
    "c130_cauchy",
    "c130_halfcauchy",
    "c130_hypsecant",
    "c130_anglit",
    "c130_arcsine",
    "c130_laplace",
    "c130_loglaplace",
    "c130_triang",
    "c130_trapz"
   ],
   "note": "Over exact reals, on the inside of the support. scipy's rv_continuous (location, scale, ends of the support) is not modelled. The package re-exports scipy's copies of these classes; what is modelled is the copy in the repository."
  },
  {
   "property": "C131",
   "status": "proved",
   "theorems": [
    "c131_special",
    "c131_norm",
    "c131_alpha",
    "c131_fatiguelife",
    "c131_halfnorm",
    "c131_johnsonsb",
    "c131_johnsonsu",
    "c131_levy",
    "c131_levy_l",
    "c131_lognorm",
    "c131_gilbrat",
    "c131_powernorm",
    "c131_powerlognorm",
    "c131_truncnorm",
    "c131_truncnorm_central",
    "c131_crystalball",
    "c131_foldnorm_density",
    "c131_foldnorm_values",
    "c131_exponnorm_density",
    "c131_exponnorm_others",
    "c131_invgauss_density",
    "c131_invgauss_log",
    "c131_recipinvgauss_density",
    "c131_recipinvgauss_log"
   ],
   "note": "Over exact reals, inside the support; ndtr, ndtri, log_ndtr and erfc are their definitions (integrals and the inverse). The numerical root of the far tails of truncnorm.ppf is a parameter with its equation as hypothesis; infinite ends of truncnorm and overflow guards are not modelled."
  },
  {
   "property": "C132",
   "status": "proved",
   "theorems": [
    "c132_fixed_kept",
    "c132_free_found",
    "c132_no_search",
    "c132_two_names",
    "c132_all_fixed",
    "c132_too_many",
    "c132_unknown_keyword",
    "c132_method",
    "c132_unknown_keyword_refuted",
    "c132_none_refuted"
   ],
   "note": "The optimiser, scipy.optimize by name, the distribution start values and the two objectives are parameters; data are inside the objective. The shape names are given as a list (self.shapes after splitting). Warnings are not modelled; str.lower for ASCII."
  },
  {
   "property": "C133",
   "status": "proved",
   "theorems": [
    "c133_value",
    "c133_bound",
    "c133_product",
    "c133_outside",
    "c133_illegal",
    "c133_too_short",
    "c133_upper_tail",
    "c133_units",
    "c133_no_ties",
    "c133_support"
   ],
   "note": "Over exact reals; pdf, cdf, sf, support and argcheck of the distribution are parameters. The cdf is assumed nondecreasing with values in [0, 1] where the value is stated."
  },
  {
   "property": "C134",
   "status": "proved",
   "theorems": [
    "c134_constructor",
    "c134_pmf",
    "c134_cdf",
    "c134_sf",
    "c134_close",
    "c134_cdf_monotone",
    "c134_total",
    "c134_total_refuted",
    "c134_sf_entry",
    "c134_sf_entry_refuted",
    "c134_stats",
    "c134_local"
   ],
   "note": "Over exact reals with the machine epsilon as a parameter; scipy's public wrappers pmf, cdf and sf are modelled for integer arguments and loc=0, including their clipping. Random variates and ppf are not modelled."
  },
  {
   "property": "C135",
   "status": "proved",
   "theorems": [
    "c135_magic",
    "c135_too_small"
   ],
   "note": "Over integers: the arrays of odd order hold whole floats, exact while n^2 < 2^53."
  },
  {
   "property": "C136",
   "status": "proved",
   "theorems": [
    "c136_linear",
    "c136_linear_affine",
    "c136_linear_one",
    "c136_linear_none",
    "c136_adaptive",
    "c136_adaptive_shape",
    "c136_adaptive_none"
   ],
   "note": "Exact arithmetic; the function is applied pointwise; tiny is a positive parameter."
  },
  {
   "property": "C137",
   "status": "proved",
   "theorems": [
    "c137_good_bins",
    "c137_number",
    "c137_data",
    "c137_cover",
    "c137_errors",
    "c137_constant_refuted"
   ],
   "note": "Exact arithmetic; one dimensional data. The case of constant data is refuted."
  },
  {
   "property": "C138",
   "status": "proved",
   "theorems": [
    "c138_counts",
    "c138_density",
    "c138_default",
    "c138_errors",
    "c138_caller_refuted"
   ],
   "note": "np.histogram is modelled by its documentation; plotting itself is left out. The aliasing of the caller's limits is refuted."
  },
  {
   "property": "C139",
   "status": "proved",
   "theorems": [
    "c139_coefficients",
    "c139_default_period",
    "c139_default_m",
    "c139_estimate",
    "c139_recovers",
    "c139_scale_refuted",
    "c139_twice_refuted",
    "c139_errors"
   ],
   "note": "method='trapz' only; broadcasting of one or two times is taken as an error. The scaling and the aliasing of the caller's times are refuted."
  },
  {
   "property": "C140",
   "status": "proved",
   "theorems": [
    "c140_vector",
    "c140_threshold",
    "c140_default",
    "c140_matrix",
    "c140_no_extremes_refuted",
    "c140_one_row_refuted",
    "c140_empty"
   ],
   "note": "samples are integers, thresholds fractions; argsort is any order of the heights. Negative n and negative min_h are in the model but not in the theorems."
  },
  {
   "property": "C141",
   "status": "proved",
   "theorems": [
    "c141_normal",
    "c141_given",
    "c141_few",
    "c141_unknown",
    "c141_between_levels_refuted",
    "c141_extrapolate",
    "c141_default",
    "c141_intensity_refuted",
    "c141_beyond"
   ],
   "note": "Exact arithmetic; np.polyfit is any least squares line, the fitted survival function is a parameter (its fit to an empty sample, when all counts are below 1, included). The confidence bands of the genpareto tail are left out."
  },
  {
   "property": "C142",
   "status": "proved",
   "theorems": [
    "c142_irregularity",
    "c142_yule_walker",
    "c142_recursion",
    "c142_linear",
    "c142_covariance",
    "c142_stationary_limit",
    "c142_start",
    "c142_start_refuted"
   ],
   "note": "Exact arithmetic; covariance of a linear function of independent standard normal numbers is defined as the inner product of its coefficients. The transformation of the latent process to the wanted crossing spectrum is not modelled. The variance of the second value is refuted."
  },
  {
   "property": "C143",
   "status": "proved",
   "theorems": [
    "c143_shape",
    "c143_columns",
    "c143_covariance",
    "c143_close",
    "c143_kept",
    "c143_averaged",
    "c143_zero_end_refuted",
    "c143_not_maximal",
    "c143_few_times",
    "c143_default_refuted"
   ],
   "note": "Exact arithmetic, derivative=False, no transformation; the covariance of linear functions of independent standard normal numbers is the inner product of their coefficients. Functions that end with 0 and the default length are refuted."
  },
  {
   "property": "C144",
   "status": "proved",
   "theorems": [
    "c144_exact",
    "c144_exact_long",
    "c144_sparse_matrix",
    "c144_approx",
    "c144_approx_fails",
    "c144_default_refuted",
    "c144_series_kept_refuted",
    "c144_marks_refuted",
    "c144_data_kept_refuted",
    "c144_lag",
    "c144_marked",
    "c144_too_short",
    "c144_not_maximal",
    "c144_none_missing",
    "c144_all_missing",
    "c144_other_method"
   ],
   "note": "Exact arithmetic; scipy's solvers are a parameter that is assumed to solve the system at hand, numpy's multivariate_normal is a parameter. One missing value in a long series is not covered. That the default method succeeds and that the arguments are left alone is refuted."
  },
  {
   "property": "C145",
   "status": "proved",
   "theorems": [
    "c145_length",
    "c145_polynomial",
    "c145_least_squares",
    "c145_least_noise",
    "c145_constant",
    "c145_line",
    "c145_falling_refuted",
    "c145_derivative_refuted",
    "c145_short_refuted",
    "c145_rejected",
    "c145_pieces",
    "c145_answers",
    "c145_increasing",
    "c145_decreasing",
    "c145_last_point_refuted"
   ],
   "note": "Exact arithmetic; numpy's pinv is a parameter assumed to be a left inverse with symmetric projection for the matrix at hand. The sign and the factor of derivatives, falling lines at the ends, short data and a single last point are refuted."
  },
  {
   "property": "C146",
   "status": "proved",
   "theorems": [
    "c146_stirlerr",
    "c146_stirlerr_other",
    "c146_betaloge",
    "c146_symmetric",
    "c146_betaloge_other",
    "c146_binomln",
    "c146_whole_numbers",
    "c146_zero",
    "c146_log_gamma_exists"
   ],
   "note": "Exact arithmetic, elementwise; the literals S0 to S4 are taken as the fractions given beside them. The logarithm of the gamma function is specified as in the theorem of Bohr and Mollerup; Stirling's constant is derived from Wallis' product."
  },
  {
   "property": "C147",
   "status": "proved",
   "theorems": [
    "c147_given_kept",
    "c147_bigger",
    "c147_deviation",
    "c147_deviations",
    "c147_deadweight",
    "c147_deadweight_refuted",
    "c147_first_letters",
    "c147_refused",
    "c147_gravity",
    "c147_gravity_even",
    "c147_gravity_increasing"
   ],
   "note": "Exact arithmetic, scalar arguments. The part on the standard deviation of max_deadweight is refuted (misspelt key)."
  },
  {
   "property": "C148",
   "status": "proved",
   "theorems": [
    "c148_expon",
    "c148_weibull",
    "c148_burr",
    "c148_exponweib",
    "c148_genpareto",
    "c148_gumbel",
    "c148_genextreme",
    "c148_rayleigh",
    "c148_truncrayleigh",
    "c148_expon_exceeds",
    "c148_weibull_exceeds",
    "c148_burr_exceeds",
    "c148_exponweib_exceeds",
    "c148_genpareto_exceeds",
    "c148_gumbel_exceeds",
    "c148_genextreme_exceeds",
    "c148_rayleigh_exceeds",
    "c148_truncrayleigh_exceeds",
    "c148_burr_nan",
    "c148_burr_refuted",
    "c148_exponweib_nan",
    "c148_exponweib_refuted",
    "c148_genpareto_location_refuted",
    "c148_gumbel_location_refuted",
    "c148_genextreme_location_refuted",
    "c148_genexpon_refuted",
    "c148_rayleigh_scale_refuted",
    "c148_truncrayleigh_refuted",
    "c148_names",
    "c148_not_implemented"
   ],
   "note": "Exact arithmetic; nan and the infinities are one value; the distributions are those of C130 with location and scale. Proved for the links that are right; each of the others is refuted."
  },
  {
   "property": "C149",
   "status": "proved",
   "theorems": [
    "c149_bounds",
    "c149_nested",
    "c149_interval",
    "c149_piece",
    "c149_grid",
    "c149_points_refuted",
    "c149_search",
    "c149_maximum",
    "c149_index",
    "c149_default_index",
    "c149_first_free_refuted",
    "c149_wide",
    "c149_valley_refuted"
   ],
   "note": "Exact arithmetic; the maximum of the log likelihood over the free parameters is a function of the profiled variable (Nelder-Mead is assumed to find it) with finite values; chi2isf is a parameter."
  },
  {
   "property": "C150",
   "status": "proved",
   "theorems": [
    "c150_hessian",
    "c150_symmetric",
    "c150_covariance",
    "c150_quadratic",
    "c150_errors",
    "c150_interval",
    "c150_nested",
    "c150_nan",
    "c150_fixed",
    "c150_pvalue",
    "c150_pvalue_order",
    "c150_pvalue_default",
    "c150_grid",
    "c150_density",
    "c150_constant"
   ],
   "note": "Exact arithmetic; numpy's pinv, norm_ppf and chi2sf are parameters (pinv is assumed to invert invertible matrices); np.histogram as modelled for C138; finite parameters."
  },
  {
   "property": "C151",
   "status": "proved",
   "theorems": [
    "c151_moments",
    "c151_letters",
    "c151_default",
    "c151_errors",
    "c151_myt",
    "c151_myt_refuted",
    "c151_k2d_refuted",
    "c151_invariant",
    "c151_rotate",
    "c151_rotate_twice",
    "c151_tuple_refuted",
    "c151_axis_refuted",
    "c151_angle_refuted"
   ],
   "note": "Exact arithmetic; scipy's simps as for C110; shapes of data and args agree; rotate with rotateGrid=False."
  },
  {
   "property": "C152",
   "status": "proved",
   "theorems": [
    "c152_independent",
    "c152_equal",
    "c152_opposite",
    "c152_invalid",
    "c152_symmetric",
    "c152_marginals",
    "c152_dependence",
    "c152_median",
    "c152_quadrature",
    "c152_rule_6",
    "c152_rule_12",
    "c152_rule_20",
    "c152_arrays",
    "c152_arrays_refuted",
    "c152_rectangle",
    "c152_own",
    "c152_empty",
    "c152_all",
    "c152_strip_refuted",
    "c152_maxima",
    "c152_density",
    "c152_normal",
    "c152_rayleigh",
    "c152_irregularity"
   ],
   "note": "Exact arithmetic with the decimal nodes and weights of the code and 2 pi for the literal; finite limits. The size of the quadrature error for |r| < 0.925 and of the series for 0.925 <= |r| < 1 is not bounded. For 0.3 <= |r| < 0.925 different rules are used for r and -r, so the marginals agree only up to that error."
  },
  {
   "property": "C153",
   "status": "proved",
   "theorems": [
    "c153_interpolates",
    "c153_order",
    "c153_nan",
    "c153_integral",
    "c153_additive",
    "c153_defaults",
    "c153_outside",
    "c153_reversed",
    "c153_reversed_refuted",
    "c153_columns",
    "c153_confidence",
    "c153_no_children",
    "c153_dimensions",
    "c153_cdf",
    "c153_cdf_monotone",
    "c153_transformed",
    "c153_cumulative",
    "c153_cumulative_refuted",
    "c153_limits",
    "c153_limits_refuted",
    "c153_levels",
    "c153_own_levels",
    "c153_labels",
    "c153_title",
    "c153_zlab",
    "c153_zlab_refuted",
    "c153_title_refuted"
   ],
   "note": "Exact arithmetic; one-dimensional args and the trapezoidal method. What the plotting library draws is not modelled, only the points, limits and texts handed to it."
  },
  {
   "property": "C154",
   "status": "proved",
   "theorems": [
    "c154_points",
    "c154_grid",
    "c154_few_axes_refuted",
    "c154_vander",
    "c154_vander_errors",
    "c154_fit_fails",
    "c154_fit_square",
    "c154_fit_refuted",
    "c154_one",
    "c154_two",
    "c154_many",
    "c154_default",
    "c154_three_refuted"
   ],
   "note": "Exact arithmetic; coordinates are vectors of points; chebfit_dct for functions. numpy's chebval, chebvander, meshgrid, rollaxis and scipy's dct are modelled by their documented formulas; the least squares solver is a parameter."
  },
  {
   "property": "C155",
   "status": "proved",
   "theorems": [
    "c155_resample",
    "c155_keeps",
    "c155_few",
    "c155_empty",
    "c155_one",
    "c155_unknown",
    "c155_unchanged_refuted",
    "c155_nmax_refuted",
    "c155_failure_refuted"
   ],
   "note": "Exact arithmetic; in floating point the smallest gap of the trial grid can come out a little below its exact value, which doubles the number of frequencies. scipy's cubic spline is a parameter; Stineman and linear interpolation and discretize are the models of C84, C136."
  },
  {
   "property": "C156",
   "status": "proved",
   "theorems": [
    "c156_smoothing",
    "c156_row_slope",
    "c156_column_slope",
    "c156_both",
    "c156_constant",
    "c156_rising",
    "c156_rising_slopes",
    "c156_even",
    "c156_few",
    "c156_accepted",
    "c156_order_refuted",
    "c156_border_refuted"
   ],
   "note": "numpy.linalg.pinv is a parameter with the four Penrose equations; c156_inverse_case shows by Greville's recursion that such a routine exists. Exact arithmetic; fftconvolve is the plain convolution. The half window is at least 1 and smaller than both sides of the image."
  },
  {
   "property": "C157",
   "status": "proved",
   "theorems": [
    "c157_agrees",
    "c157_order",
    "c157_refused",
    "c157_best",
    "c157_exact",
    "c157_points",
    "c157_lengths",
    "c157_zero_refuted",
    "c157_poly1d_refuted",
    "c157_longer_refuted"
   ],
   "note": "The linear solver of scipy's pade and the pseudo-inverse by singular values are parameters; c157_solver_case and c156_inverse_case show that such routines exist. A denominator that is 0 at a point, where numpy goes on with inf or nan, is an error value in the model, so the theorems about padefitlsq speak of the calls that return; c157_line_case is one. The warning of _check_size and the trace are left out, and so is `dev`, which the documentation promises and the code does not return."
  },
  {
   "property": "C158",
   "status": "proved",
   "theorems": [
    "c158_bases",
    "c158_weights",
    "c158_levin",
    "c158_linear_rule",
    "c158_exact",
    "c158_fourier",
    "c158_estimate",
    "c158_reversed",
    "c158_same_limits",
    "c158_few_levels",
    "c158_maxiter_refuted",
    "c158_half_line",
    "c158_half_line_down",
    "c158_whole_line",
    "c158_adaptive",
    "c158_limits",
    "c158_all_limits",
    "c158_levin_points",
    "c158_open_points",
    "c158_richardson"
   ],
   "note": "Exact numbers; Limit(h)(t) is h(t), so integrands with singularities at the nodes are left out, as are nan and inf as estimates; the derivative of the phase is given. lstsq, dea3, finfo.eps and the level crossings of findcross and ecross (C01, C02) are parameters; c158_solver_case shows that a solver exists. AdaptiveLevin is modelled for s = 1 and real integrands. For infinite limits only the changes of variables are modelled, between interior points. tanh_sinh_nodes and tanh_sinh_open_nodes are not modelled."
  },
  {
   "property": "C159",
   "status": "proved",
   "theorems": [
    "c159_common",
    "c159_conform",
    "c159_error",
    "c159_order",
    "c159_three",
    "c159_rows",
    "c159_one",
    "c159_number",
    "c159_pi",
    "c159_unique",
    "c159_other",
    "c159_sign_refuted"
   ],
   "note": "numpy's limits of 32 axes and 32 arguments are left out. The fraction that Python's limit_denominator returns for x / pi and the text of the number format are arguments of the modelled num2pistr."
  },
  {
   "property": "C160",
   "status": "proved",
   "theorems": [
    "c160_waves",
    "c160_positive",
    "c160_few",
    "c160_short",
    "c160_steepness",
    "c160_names",
    "c160_unknown"
   ],
   "note": "rate=1 only: the spline interpolation for rate > 1 is not modelled. Samples are integers (multiples of a unit), instants real numbers; the warning about non-uniform sampling and numpy's repetition of arrays with one element are left out."
  },
  {
   "property": "C161",
   "status": "proved",
   "theorems": [
    "c161_entries",
    "c161_one_cycle",
    "c161_no_range",
    "c161_no_cycles",
    "c161_sum",
    "c161_order_of_cycles",
    "c161_whole_powers",
    "c161_turned",
    "c161_moved",
    "c161_enlarged",
    "c161_larger",
    "c161_pairs",
    "c161_rising",
    "c161_falling",
    "c161_mixed",
    "c161_ends_refuted"
   ],
   "note": "Exact reals; 0 to a negative power (infinite in numpy) is excluded. Scalar beta, for which the loop over beta raises TypeError, is not modelled."
  },
  {
   "property": "C162",
   "status": "proved",
   "theorems": [
    "c162_terms",
    "c162_cases",
    "c162_scale",
    "c162_outside",
    "c162_all_frequencies_refuted",
    "c162_deep_water",
    "c162_deep_water_limit",
    "c162_mean_level_limit",
    "c162_transfer_functions"
   ],
   "note": "Exact reals; rvec and ivec are one array of complex numbers. Reads outside the inputs and division by zero at w = 0 are not modelled (nmin >= 2 in the callers). The C function has the same loops. That the difference transfer functions of finite depth tend to those of deep water is not stated."
  }
 ]
}