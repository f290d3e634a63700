{
 "claims": [
  {
   "property": "C01",
   "status": "proved",
   "theorems": [
    "C01_pair_kernel",
    "C01_fused_kernel",
    "C01_tau_bound"
   ],
   "note": "S as pair count, both kernels, tau bound"
  },
  {
   "property": "C02",
   "status": "proved",
   "theorems": [
    "C02_reverse",
    "C02_increasing_map",
    "C02_decreasing_map",
    "C02_shift",
    "C02_negate"
   ],
   "note": "time reversal, monotone maps, shift, negation"
  },
  {
   "property": "C03",
   "status": "proved",
   "theorems": [
    "C03_sort_real_inplace",
    "C03_sort_indices_by_values",
    "C03_quicksort_window",
    "C03_median_of_three"
   ],
   "note": "real and index versions; reads outside the partitioned window make the model return None"
  },
  {
   "property": "C04",
   "status": "proved",
   "theorems": [
    "C04_select_kth_real",
    "C04_kth_smallest_unique"
   ],
   "note": "quickselect refines the order statistic"
  },
  {
   "property": "C05",
   "status": "proved",
   "theorems": [
    "C05_sen_slope",
    "C05_sen_slope_fused",
    "C05_sen_between"
   ],
   "note": "separate and fused Sen kernels"
  },
  {
   "property": "C06",
   "status": "proved",
   "theorems": [
    "C06_affine",
    "C06_reverse"
   ],
   "note": "scaling, linear trend, reversal"
  },
  {
   "property": "C07",
   "status": "proved",
   "theorems": [
    "C07_variance",
    "C07_order_independent",
    "C07_nonneg_zero_iff",
    "C07_no_ties",
    "C07_nonzero_score_positive_variance"
   ],
   "note": "textbook formula, order independence, sign, zero case; S<>0 implies positive variance"
  },
  {
   "property": "C08",
   "status": "proved",
   "theorems": [
    "C08_grouped_sen",
    "C08_slope_count",
    "C08_period_one"
   ],
   "note": "any period, incl. periods not dividing the length"
  },
  {
   "property": "C09",
   "status": "proved",
   "theorems": [
    "C09_average_ranks",
    "C09_rank_vector",
    "C09_rank_sum"
   ],
   "note": "both rank kernels"
  },
  {
   "property": "C10",
   "status": "partial",
   "theorems": [
    "C10_sen_products_fit",
    "C10_sen_products_refuted",
    "C10_hamed_rao_exact",
    "C10_hamed_rao_refuted"
   ],
   "note": "the claim as stated is false: products fit for n<=46341 (Sen) and n<=1291 (Hamed-Rao) and are refuted one step beyond"
  },
  {
   "property": "C11",
   "status": "proved",
   "theorems": [
    "C11_yue_wang_formula",
    "C11_yue_wang_all_lags",
    "C11_yue_wang_zero_acf",
    "C11_yue_wang_limited_refuted",
    "C11_hamed_rao_formula"
   ],
   "note": "all-lag positivity; formula for any lag limit; with a lag limit the variance can be negative (refuted variant)"
  },
  {
   "property": "C12",
   "status": "proved",
   "theorems": [
    "z_score_rule",
    "z_score_odd",
    "z_score_monotone",
    "z_score_degenerate",
    "significance_matches_p",
    "p_value_range",
    "test_result",
    "test_result_determined",
    "test_decision",
    "tau_range",
    "test_reversed",
    "test_rescaled",
    "trend_with_gap_refuted",
    "yue_wang_limited_lag_nan_refuted"
   ],
   "note": "test='original', both slope methods; cdf/ppf abstract under stated hypotheses (normal_like, inhabited); refutations: gaps are closed up before the slope, Yue-Wang with limited lags gives NaN z"
  },
  {
   "property": "C13",
   "status": "proved",
   "theorems": [
    "gridded_equals_scalar",
    "chunks_partition",
    "chunk_size_irrelevant",
    "default_chunk_valid",
    "chunk_zero_raises",
    "negative_chunk_size_refuted"
   ],
   "note": "test='original', no group axis; negative chunk_size leaves every point NaN (refutation), 0 raises"
  },
  {
   "property": "C14",
   "status": "proved",
   "theorems": [
    "fill_never_changes_observed",
    "iteration_never_changes_observed"
   ],
   "note": "Any arithmetic (so also for rounded float64), any mask, mode, itermax; for fill on a prepared 3-D array and at every intermediate sweep."
  },
  {
   "property": "C15",
   "status": "proved",
   "theorems": [
    "stencil_indices",
    "solver_reads_only_inside"
   ],
   "note": "Indices inside the grid, cyclic wrap, mirror at edges; plus the whole solver depends only on cells inside the grid."
  },
  {
   "property": "C16",
   "status": "proved",
   "theorems": [
    "sweeps_maximum_principle",
    "fill_maximum_principle"
   ],
   "note": "Exact arithmetic. The bound on initial guesses is discharged too: for fill() the result lies between bounds of the observed values (and initial_value), for rows that the initialisation reaches (see C21)."
  },
  {
   "property": "C17",
   "status": "partial",
   "theorems": [
    "converged_flag_truthful",
    "converged_solves_laplace",
    "sweep_residual_is_largest_change",
    "converged_with_itermax_0_refuted",
    "converged_with_nan_refuted"
   ],
   "note": "Proved for itermax >= 1 (exact arithmetic): flag = last sweep's change <= eps, iteration count, early stop; consequence: Laplace residual <= eps/relax. The statement is refuted for itermax = 0 and for NaN among observed values."
  },
  {
   "property": "C18",
   "status": "proved",
   "theorems": [
    "zero_residual_iff_harmonic",
    "harmonic_is_fixed",
    "sweep_is_gauss_seidel",
    "laplace_solution_unique",
    "constant_field_filled_with_constant"
   ],
   "note": "Zero residual iff discrete Laplace equation, fixed point for any number of sweeps, exact Gauss-Seidel update equation, uniqueness of the solution, constants are reproduced."
  },
  {
   "property": "C19",
   "status": "proved",
   "theorems": [
    "slices_filled_independently",
    "early_exit_iff_nothing_missing"
   ],
   "note": "Any arithmetic."
  },
  {
   "property": "C20",
   "status": "partial",
   "theorems": [
    "gridfill_prep_elements",
    "gridfill_recover_elements",
    "gridfill_round_trip",
    "gridfill_prep_rejects",
    "fill_any_rank_keeps_observed",
    "fill_any_rank_is_slicewise",
    "windspharm_recover_elements",
    "windspharm_round_trip",
    "windspharm_duplicate_labels_refuted",
    "windspharm_capital_label_refuted"
   ],
   "note": "Proved for every rank and axis position for gridfill, and for windspharm with distinct labels; refuted for windspharm dim_order strings with a repeated label or a capital X/Y before x/y. fill() of any rank lifted (observed values kept, slice by slice)."
  },
  {
   "property": "C21",
   "status": "partial",
   "theorems": [
    "initial_guess_in_row_range",
    "zonal_linear_skipped_rows",
    "zonal_linear_noncyclic_refuted",
    "zonal_mean_empty_row_refuted"
   ],
   "note": "Proved for zonal mean, cyclic zonal linear, and non-cyclic zonal linear rows whose masks agree at column 1 and the last column; all other non-cyclic rows are left alone or set to initial_value (zonal_linear_skipped_rows), and the statement is refuted there: 1e20 leaks into the result. A fully masked row with initzonal leaks 1e20 as well."
  },
  {
   "property": "C22",
   "status": "proved",
   "theorems": [
    "int2p_at_level",
    "int2p_between",
    "int2p_outside_missing",
    "int2p_missing_target",
    "int2p_extrapolates",
    "int2p_log_low_extrapolation_refuted",
    "int2p_raises"
   ],
   "note": "Exact arithmetic; the logarithm is an argument assumed strictly increasing on positive pressures. Finite inputs below float max, and the storage order readable from the first two source pressures (see C23/C24)."
  },
  {
   "property": "C23",
   "status": "partial",
   "theorems": [
    "int2p_depends_only_on_levels",
    "int2p_source_reversed",
    "int2p_targets_reversed",
    "int2p_complete_pressures_visible",
    "int2p_misread_order",
    "int2p_missing_first_pressure_refuted"
   ],
   "note": "Proved whenever the first two source pressures are present and step the way the usable levels do; refuted otherwise: a missing pressure in the first two places makes the kernel misread the storage order and return missing for every target that is not a source level."
  },
  {
   "property": "C24",
   "status": "partial",
   "theorems": [
    "int2p_missing_level_absent",
    "int2p_depends_only_on_levels",
    "int2p_misread_order",
    "int2p_missing_second_pressure_refuted"
   ],
   "note": "Proved whenever the first two source pressures are present and step the way the usable levels do (values may be missing anywhere); refuted when a missing pressure sits in the first two places."
  },
  {
   "property": "C25",
   "status": "partial",
   "theorems": [
    "hybrid_paths_agree_extrapolating",
    "hybrid_paths_agree_partial",
    "hybrid_paths_nan_refuted"
   ],
   "note": "Both paths equal for any data with extrapolation; without it, equal when columns are strictly monotone and either the column has no NaN or no target sits exactly on a level. Missing: NaN next to an exact level, where the paths do differ (hybrid_paths_nan_refuted)."
  },
  {
   "property": "C26",
   "status": "partial",
   "theorems": [
    "hybrid_values",
    "hybrid_no_invention_partial",
    "hybrid_missing_surface",
    "hybrid_above_top_refuted",
    "hybrid_extrapolated_values"
   ],
   "note": "Missing below the lowest level, exact on a level, within the column's values inside the range, missing column when the surface pressure is missing; with extrapolation the published below-ground formulas. The claim is false above the model top: values are continued linearly there even with extrapolate=False (hybrid_above_top_refuted)."
  },
  {
   "property": "C27",
   "status": "proved",
   "theorems": [
    "thickness_nonneg",
    "thickness_layer",
    "thickness_total",
    "thickness_total_not_monotone_refuted"
   ],
   "note": "Thicknesses are the distances of neighbouring interface pressures, non-negative, and total the distance of first and last when the pressures are weakly monotone (at least that in general)."
  },
  {
   "property": "C28",
   "status": "proved",
   "theorems": [
    "isentropic_values",
    "isentropic_value_unique",
    "isentropic_in_range",
    "isentropic_outside",
    "isentropic_order_free",
    "isentropic_order_duplicates_refuted"
   ],
   "note": "Order independence is for distinct thetas; isentropic_order_duplicates_refuted shows it fails for equal thetas. ** is an argument."
  },
  {
   "property": "C29",
   "status": "proved",
   "theorems": [
    "flat_addresses_bijective",
    "flat_address_exact32",
    "flat_address_int32_refuted"
   ],
   "note": "Addresses of the vinth2p flat kernels are a permutation of the buffer; with the kernel's 32-bit integers they are exact below 2^31 elements and can be negative above (flat_address_int32_refuted). In-bounds behaviour of the kernels themselves is part of hybrid_values / geopotential_flat_is_column / sigma_values (a result exists for every shape)."
  },
  {
   "property": "C30",
   "status": "proved",
   "theorems": [
    "linmsg_values",
    "linmsg_values_unique",
    "linmsg_short_gaps_equal",
    "linmsg_valid_unchanged",
    "linmsg_interior_between",
    "linmsg_long_gap_kept",
    "linmsg_trailing_limit_refuted"
   ],
   "note": "The trailing gap with mflag < 0 ignores the limit: linmsg_trailing_limit_refuted; everything else as stated, exact arithmetic."
  },
  {
   "property": "C31",
   "status": "proved",
   "theorems": [
    "lin2int1_pointwise",
    "linear_at_determined",
    "linear_at_in_range"
   ],
   "note": "dlin2int1 for both directions: every target gets the pointwise interpolant, which is unique and within range"
  },
  {
   "property": "C32",
   "status": "proved",
   "theorems": [
    "grid2triple_values",
    "grid_to_triple_values",
    "grid_to_triple_sentinel_refuted"
   ],
   "note": "Kernel: exactly the cells different from the sentinel in row order, ier=-10 iff none. Wrapper: cells that are neither missing nor equal to the sentinel; a genuine value equal to the sentinel is dropped (grid_to_triple_sentinel_refuted)."
  },
  {
   "property": "C33",
   "status": "partial",
   "theorems": [
    "grid_to_triple_array",
    "triple_to_grid_array",
    "grid_to_triple_array_refuted",
    "grid_to_triple_exception_refuted",
    "triple_to_grid_exception_refuted"
   ],
   "note": "The claim is false; proved instead exactly when the array is unchanged (iff), on return and on an exception, for both functions, with witnesses for each failure."
  },
  {
   "property": "C34",
   "status": "partial",
   "theorems": [
    "trip2grd3_values",
    "trip2grd3_nearest",
    "trip2grd2_values",
    "triple2grid_inside",
    "triple2grid_outside",
    "triple2grid_empty",
    "nearest_node_refuted",
    "uninitialised_slope_refuted",
    "first_not_nearest_refuted",
    "farther_kept_refuted",
    "exact_node_missed_refuted",
    "domain_shift_refuted",
    "upper_edge_refuted",
    "two_point_axis_overrun",
    "search_angle_correct",
    "second_pass_angle_refuted"
   ],
   "note": "Full search (trip2grd3): proved as claimed. trip2grd2, the only routine the entry point calls: exact description proved for increasing axes of at least 3 points that are exactly equal or not nearly equal; the nearest-point claim itself is refuted in nine ways."
  },
  {
   "property": "C35",
   "status": "partial",
   "theorems": [
    "bilinear_values",
    "bilinear_determined",
    "bilinear_at_node",
    "bilinear_field_exact",
    "bilinear_in_range",
    "bilinear_identity",
    "bilinear_paths_agree",
    "bilinear_nan_rule",
    "bilinear_nan_identity_refuted",
    "bilinear_target_order_refuted",
    "bilinear_seam_refuted",
    "bilinear_planes"
   ],
   "note": "Every value is the bilinear interpolant (clamped outside), exact on bilinear fields, range preserving, identity on equal grids and equal to the numpy path for fields without NaN. Refuted with NaN: the compiled path loses valid samples next to a NaN even at coinciding nodes (exact NaN rule proved) and the result depends on target order. Longitude is not periodic (seam refuted)."
  },
  {
   "property": "C36",
   "status": "proved",
   "theorems": [
    "latitude_weights_values",
    "latitude_weights_rows",
    "latitude_weights_conserve",
    "latitude_weights_same_grid"
   ],
   "note": "Latitudes between the poles; sine is any nondecreasing function; conservation needs every target band area above the code's 1e-15 threshold."
  },
  {
   "property": "C37",
   "status": "partial",
   "theorems": [
    "longitude_weights_rows",
    "longitude_weights_values",
    "circle_common_determined",
    "longitude_weights_conserve",
    "longitude_weights_same_grid",
    "longitude_weights_wide_refuted",
    "longitude_weights_regional_refuted",
    "longitude_weights_two_refuted"
   ],
   "note": "Rows sum to 1 and are non-negative for all grids. Weights are the overlap on the circle, conservative and the identity on equal grids when gaps are below half the period and two cells together are at most half the period. Refuted without it: coarse grids, regional grids and two-point grids."
  },
  {
   "property": "C38",
   "status": "proved",
   "theorems": [
    "conservative_values",
    "mean_at_determined",
    "mean_at_in_range",
    "mean_at_missing",
    "conservative_paths_agree",
    "conservative_total"
   ],
   "note": "Any non-negative weights; the numpy path gives the same result; totals over the sphere conserved for fields without NaN."
  },
  {
   "property": "C39",
   "status": "proved",
   "theorems": [
    "search_first_tropopause",
    "first_tropopause_determined",
    "column_hpa",
    "column_work_independent",
    "profile_is_column",
    "grids_are_columns",
    "crossing_in_between",
    "above_450_refuted",
    "pressure_inside_column_refuted",
    "wmo_definition_refuted",
    "lapse_at_top_refuted",
    "profile_order_refuted"
   ],
   "note": "In any arithmetic: the kernel reports the first tropopause from below (slow layer above 450 hPa whose mean rate over the next 2 km is below the criterion), or all outputs missing; gridded and profile routines agree with the column. Refuted beside it: the header's promises (above 450 hPa, pressure inside the column, WMO means at all levels within 2 km), lapse rate at level 0, level order for the profile routine."
  },
  {
   "property": "C40",
   "status": "partial",
   "theorems": [
    "success_hpa",
    "success_pa",
    "success_flag_pa_refuted"
   ],
   "note": "Proved for hPa. False for Pa: the marker is multiplied by 100 before the test, so every complete column has success 1 (success_pa, with a witness in success_flag_pa_refuted)."
  },
  {
   "property": "C41",
   "status": "partial",
   "theorems": [
    "transpose_then_argsort_restores",
    "trop_wmo_columns",
    "trop_wmo_no_spatial_dim_refuted",
    "trop_wmo_one_spatial_dim_refuted"
   ],
   "note": "Transpose then argsort restores every element (all ranks). trop_wmo: result at each position is the kernel on the column at that position, with level in argsort order. Refuted when no or (4-D) only one spatial dimension is named."
  },
  {
   "property": "C42",
   "status": "partial",
   "theorems": [
    "geostrophic_kernel_flip",
    "geostrophic_wind_slicewise",
    "geostrophic_wind_reversed_input",
    "geostrophic_wind_flip_refuted",
    "geostrophic_wind_2d_order_refuted"
   ],
   "note": "The Fortran routine is flip-equivariant in any arithmetic. geostrophic_wind is not: input stored north to south comes back south to north (proved exactly in geostrophic_wind_reversed_input and geostrophic_wind_slicewise, refuted as stated). 2-D arrays in (lon, lat) order are not transposed (refuted)."
  },
  {
   "property": "C43",
   "status": "partial",
   "theorems": [
    "geostrophic_missing_in_missing_out",
    "geostrophic_small_grid",
    "geostrophic_is_local",
    "geostrophic_values",
    "geostrophic_missing_iff",
    "geostrophic_shift",
    "geostrophic_exact_on_linear",
    "geostrophic_edge_value_refuted",
    "geostrophic_wind_missing_refuted",
    "geostrophic_uneven_longitudes_refuted",
    "cyclic_detection",
    "geostrophic_repeated_meridian_refuted",
    "geostrophic_speed"
   ],
   "note": "Missing rule, locality (any arithmetic), exact values, shift invariance and exactness on linear fields proved for the Fortran routine in either storage order. The equivalence needs the computed value not to equal the missing value; refuted otherwise at the edge columns. At the Python level a missing value that is not a single precision number is not recognised (refuted). Also refuted: unevenly spaced longitudes, a repeated 360 meridian."
  },
  {
   "property": "C44",
   "status": "proved",
   "theorems": [
    "reverse_latdim_involution",
    "order_latdim_orders",
    "order_latdim_idempotent",
    "order_latdim_unsorted_refuted"
   ],
   "note": "For monotone latitudes; only end points are inspected, so unsorted latitudes are not ordered (refutation recorded)."
  },
  {
   "property": "C45",
   "status": "partial",
   "theorems": [
    "dcape_profile_value",
    "dcape_nan_or_nonnegative",
    "dcape_few_levels_nan",
    "dcape_ignores_unusable",
    "dcape_upside_down",
    "dcape_upside_down_same_ends_refuted",
    "dcape_order_matters_refuted",
    "dcape_grid_columns",
    "dcape_dispatch",
    "dcape_start_coldest",
    "dcape_start_missing",
    "dcape_levels_below_start",
    "dcape_one_level_nan",
    "dcape_real_value",
    "dcape_real_sign",
    "dcape_parcel_warms",
    "dcape_lcl",
    "dcape_moist_rate",
    "dcape_rk4_cubic",
    "dcape_rk4_linear"
   ],
   "note": "In every arithmetic: in bounds, independent of work arrays, NaN or finite and not negative, NaN below four usable levels, unusable levels ignored, orientation ignored when the end pressures differ, grid by columns; lawful comparisons: start is the theta-e minimum in 700-500 hPa; reals: closed form, sign, RK4 exactness, warming. False when both ends have the same pressure (refuted), and level order inside the profile matters (refuted); a profile with one level below 500 hPa gives NaN although a theta-e minimum exists, contrary to the docstring."
  },
  {
   "property": "C46",
   "status": "proved",
   "theorems": [
    "C46_value",
    "C46_range",
    "C46_affine_invariance",
    "C46_sign_and_symmetry",
    "C46_only_common_times",
    "C46_linear_data",
    "C46_raises",
    "C46_pearson_correlation",
    "C46_independent_of_other_points_refuted"
   ],
   "note": "Real arithmetic; Student's distribution function is an argument. One refuted theorem: with fewer than three common times the value depends on NaNs elsewhere."
  },
  {
   "property": "C47",
   "status": "partial",
   "theorems": [
    "C47_least_squares",
    "C47_slope",
    "C47_constant_predictor",
    "C47_input_unchanged",
    "C47_input_after_exception",
    "C47_input_unchanged_refuted",
    "C47_missing_predictor_refuted"
   ],
   "note": "numpy.linalg.lstsq enters through its contract (minimum-norm least squares, shown satisfiable), f_regression as an argument. 'Left unchanged whatever happens' is false: refuted; what does hold is C47_input_unchanged and C47_input_after_exception. Missing predictor values are treated as zero: refuted."
  },
  {
   "property": "C48",
   "status": "partial",
   "theorems": [
    "C48_wrap",
    "C48_stable",
    "C48_idempotent_and_inverse",
    "C48_documented_range_refuted",
    "C48_double_range_refuted"
   ],
   "note": "The documented ranges are those of the opposite flag value (refuted); the ranges proved are the actual ones. Exact arithmetic; the double-precision range is refuted at a tiny negative longitude."
  },
  {
   "property": "C49",
   "status": "partial",
   "theorems": [
    "C49_linear_exact",
    "C49_wrappers",
    "C49_quadratic_exact",
    "C49_linear_error",
    "C49_linear_in_field",
    "C49_constants",
    "C49_degenerate",
    "C49_zonal_default_axes_raise",
    "C49_zonal_positive_axes_raise",
    "C49_zonal_factor",
    "C49_any_monotonic_refuted",
    "C49_small_units_refuted",
    "C49_zonal_integer_field_refuted"
   ],
   "note": "Exact rational arithmetic with the double constants. 'Any strictly monotonic coordinate' is false for almost evenly spaced coordinates (refuted, also with a large error for small units); C49_linear_error bounds the error in all cases. Zonal gradient: findings on raising layouts, the doubled degree conversion and integer fields."
  },
  {
   "property": "C50",
   "status": "partial",
   "theorems": [
    "C50_history_independent",
    "C50_exports_resolve",
    "C50_other_names",
    "C50_unknown_names_raise",
    "C50_unknown_always_raise_refuted",
    "C50_names"
   ],
   "note": "Holds for every exported name and for unknown names that are not modules. 'Unknown names always raise' is false for modules that exist but are not exported (refuted: skyborn.gradients appears after another access)."
  },
  {
   "property": "C51",
   "status": "proved",
   "theorems": [
    "C51_normalised",
    "C51_affine",
    "C51_value",
    "C51_returns",
    "C51_causality",
    "C51_exact_fit_refuted"
   ],
   "note": "For every answer that liang returns, in exact arithmetic. A tendency fitted exactly makes b1 zero and the pseudo-inverse raise (C51_exact_fit_refuted); C51_returns says exactly when an answer is returned."
  },
  {
   "property": "C52",
   "status": "proved",
   "theorems": [
    "C52_storage_bijection",
    "C52_loops_visit_storage_order",
    "C52_getspecindx",
    "C52_truncation_exact_arithmetic",
    "C52_truncation_rounded",
    "C52_truncation_any_length_partial",
    "C52_truncation_any_length_double",
    "C52_truncation_fits_refuted",
    "C52_onedtotwod",
    "C52_roundtrip",
    "C52_roundtrip_matrices",
    "C52_validated_is_safe",
    "C52_laplacian",
    "C52_inverse_laplacian",
    "C52_smoothing",
    "C52_regrid_safe",
    "C52_result_determined_refuted",
    "C52_invlap_in_bounds_refuted",
    "C52_regrid_safe_refuted",
    "C52_vrtdiv_is_vrt_and_div",
    "C52_vrtdiv_roundtrip",
    "C52_gradient",
    "C52_point_value"
   ],
   "note": "Bijection between storage positions and (m,n) for every truncation; both round trips for every arithmetic that is a field; truncation recovered from the length with IEEE single/double rounding for every 32-bit triangular length. Also: Laplacian and inverse, smoothing, vorticity/divergence and gradient coefficients, point value, safety after validation. Refuted side claims: fitting truncation for non-triangular lengths, determined output for non-triangular lengths, inverse Laplacian of an empty spectrum, regrid with smoothing above the target truncation."
  },
  {
   "property": "C53",
   "status": "proved",
   "theorems": [
    "C53_correlated_stats",
    "C53_diagonal",
    "C53_symmetric",
    "C53_variance_nonneg"
   ],
   "note": "formula, diagonal, symmetry, non-negativity"
  },
  {
   "property": "C54",
   "status": "proved",
   "theorems": [
    "C54_partial_stats",
    "C54_fused_agrees",
    "C54_variance_nonneg",
    "C54_rho_bound",
    "C54_self_covariate"
   ],
   "note": "both kernels, bound, self covariate"
  },
  {
   "property": "C55",
   "status": "proved",
   "theorems": [
    "geopotential_flat_is_column",
    "geopotential_heights_increase"
   ],
   "note": "Under explicit bounds on the logarithm (1-1/x < log x < x-1 for x>1), which the real logarithm satisfies."
  },
  {
   "property": "C56",
   "status": "proved",
   "theorems": [
    "sigma_paths_agree",
    "sigma_values"
   ],
   "note": "Path equality for any data; values for columns without NaN; strictly monotone sigma."
  },
  {
   "property": "C57",
   "status": "proved",
   "theorems": [
    "linint1_pyf_overrun",
    "linint2pts_pyf_overrun",
    "linint1_workspace_refuted"
   ],
   "note": "stated as the finding: None is an access outside a work array; holds for every valid input"
  },
  {
   "property": "C58",
   "status": "proved",
   "theorems": [
    "linint1_values",
    "linint1_rejects",
    "wrapped_uniform",
    "linint2_values",
    "grid_value_in_range",
    "linint2pts_values",
    "point_at_in_range",
    "cell_determined",
    "linint1_stale_refuted",
    "linint1_single_descending_refuted",
    "linint2_mixed_refuted",
    "linint2_stale_column_refuted"
   ],
   "note": "drivers with the documented workspace; 1/sqrt is any function positive on positives; the failing cases are the _refuted theorems"
  },
  {
   "property": "C59",
   "status": "partial",
   "theorems": [
    "triple_to_grid_layout",
    "triple_to_grid_transposed",
    "round_trip_refuted"
   ],
   "note": "The claim is false: the element [i,j] holds node ((i*mx+j) div ny, (i*mx+j) mod ny), a transpose for square grids; round trip refuted."
  },
  {
   "property": "C60",
   "status": "proved",
   "theorems": [
    "nearest_first_best",
    "nearest_gather"
   ],
   "note": "The search is disabled by default (_ENABLE_NATIVE_NEAREST = False); scores are any values above -2."
  },
  {
   "property": "C61",
   "status": "partial",
   "theorems": [
    "std_layer",
    "std_height",
    "std_height_base",
    "std_height_refuted"
   ],
   "note": "Layer search proved; the height decreases everywhere except between the 47-51 km layer and those above it, where a rise of less than 0.22 mm is possible (bound proved) and does occur: the claim as stated is refuted at that boundary in exact arithmetic."
  },
  {
   "property": "C62",
   "status": "proved",
   "theorems": [
    "rcm2rgrid_safe",
    "rgrid2rcm_safe",
    "rcm2points_safe"
   ],
   "note": "All reads checked; loops bounded; the radius constant and the distance are arguments."
  },
  {
   "property": "C63",
   "status": "partial",
   "theorems": [
    "rcm2rgrid_value",
    "rcm2rgrid_exact",
    "rcm2rgrid_nodes",
    "rgrid2rcm_value",
    "rgrid2rcm_nodes",
    "rcm2points_value",
    "rcm2points_exact",
    "rcm2rgrid_exact_refuted",
    "rcm2rgrid_close_nodes_refuted"
   ],
   "note": "Proved on grids spanned by two axes with steps above the tolerance, on any grid when the whole-grid scan is used, and for rcm2points on any grid. False on sheared grids (window search) and for nodes closer than the tolerance: refuted by witnesses."
  },
  {
   "property": "C64",
   "status": "partial",
   "theorems": [
    "rcm2rgrid_paths",
    "batch_anchors",
    "rgrid2rcm_paths",
    "rcm2points_value",
    "rcm2rgrid_paths_refuted",
    "rcm2rgrid_two_columns_refuted"
   ],
   "note": "Proved for grids spanned by two spaced axes and for rcm2points on any grid spanned by two axes; the batch anchors equal the single ones. False on sheared grids: refuted."
  },
  {
   "property": "C65",
   "status": "partial",
   "theorems": [
    "rcm2rgrid_range",
    "rgrid2rcm_range",
    "rcm2points_range",
    "rcm2rgrid_value",
    "rcm2points_value",
    "rgrid2rcm_ncrit_refuted",
    "rcm2points_nan_refuted"
   ],
   "note": "Range proved for all grids (rcm2points: when no two nodes coincide); threshold proved for rcm2rgrid and rcm2points through the value theorems. rgrid2rcm ignores ncrit, coinciding nodes give NaN in rcm2points: refuted."
  },
  {
   "property": "C66",
   "status": "partial",
   "theorems": [
    "rgrid2rcm_bilinear",
    "rgrid2rcm_closing_edge_refuted"
   ],
   "note": "Proved on the half-open rectangle; false on the closing east and north edges: refuted."
  },
  {
   "property": "C67",
   "status": "partial",
   "theorems": [
    "rcm2rgrid_outside",
    "rgrid2rcm_outside",
    "rcm2points_monotone_refuted",
    "rcm2points_extrapolation_refuted",
    "rcm2points_radius_refuted",
    "dgcdist_central_angle",
    "dgcdist_symmetric",
    "dgcdist_bounds"
   ],
   "note": "No extrapolation proved for rcm2rgrid and rgrid2rcm. rcm2points extrapolates, accepts decreasing latitudes (swapped arguments of the check) and its radius is never reached because the distance is in degrees: refuted."
  },
  {
   "property": "C68",
   "status": "partial",
   "theorems": [
    "wrapper_result",
    "rcm2rgrid_input_partial",
    "rcm2rgrid_input_refuted",
    "rcm2points_input_partial",
    "rcm2points_input_refuted"
   ],
   "note": "Proved exactly when: rcm2rgrid/rgrid2rcm keep the array iff it holds no missing value; rcm2points restores it when the sentinel does not occur and the kernel returns. The claim as stated is false: refuted."
  },
  {
   "property": "C69",
   "status": "proved",
   "theorems": [
    "barot_assembled",
    "baroc_assembled",
    "barot_in_bounds",
    "baroc_in_bounds"
   ],
   "note": "Every matrix the kernels assemble is the finite-difference operator of the documented equation, for all profiles; no subscript leaves its array."
  },
  {
   "property": "C70",
   "status": "proved",
   "theorems": [
    "barot_fjortoft",
    "baroc_fjortoft",
    "barot_rayleigh",
    "baroc_rayleigh",
    "barot_shear_bound",
    "baroc_shear_bound",
    "barot_stable_zero",
    "barot_growth_bounded",
    "baroc_growth_bounded"
   ],
   "note": "Discrete Fjortoft, Rayleigh and shear bounds for every eigenpair of the assembled pencil over the reals."
  },
  {
   "property": "C71",
   "status": "partial",
   "theorems": [
    "barot_conjugate",
    "baroc_conjugate",
    "baroc_galilean",
    "baroc_zero_wavenumber_singular",
    "barot_mirror",
    "barot_galilean_refuted"
   ],
   "note": "Conjugate pairs, hemispheric mirror symmetry and the baroclinic Galilean shift are proved; the barotropic problem is not Galilean invariant, refuted by a witness."
  },
  {
   "property": "C72",
   "status": "partial",
   "theorems": [
    "eigenvalue_reduction",
    "barot_reduction",
    "running_mean",
    "running_mean_within",
    "baroc_reduction",
    "baroc_reduction_runs",
    "baroc_stable_fails"
   ],
   "note": "The reductions are proved for all spectra; the documented NaN for profiles without growing modes is false: such a profile gives the code 300 and the call raises."
  },
  {
   "property": "C73",
   "status": "proved",
   "theorems": [
    "interp_codes",
    "interp_values",
    "interp_source_reversed",
    "interp_within",
    "interp_agrees"
   ],
   "note": "Return codes, values and agreement of the kernel interpolation with the Python interpolation."
  },
  {
   "property": "C74",
   "status": "partial",
   "theorems": [
    "batch_is_single_partial",
    "single_kernel_inputs",
    "baroc_kernel_codes",
    "barot_call_reversed",
    "one_bad_profile_refuted",
    "mixed_units_refuted",
    "negative_tropopause_refuted",
    "cold_without_tropopause_refuted"
   ],
   "note": "For a stack in one pressure unit with positive tropopause pressures the batch returns what the single calls return and raises exactly when one of them does; single_kernel_inputs says what a single call hands to the kernel; the claim without these conditions is false in four ways, each with a witness. The reversal theorem covers the barotropic call."
  },
  {
   "property": "C75",
   "status": "partial",
   "theorems": [
    "C75_spectral_order",
    "C75_rows_tile",
    "C75_codes",
    "C75_setup",
    "C75_setup_refuted",
    "C75_setup_low",
    "C75_table_parity",
    "C75_table_values"
   ],
   "note": "Layout, checks and parity proved. False as stated for the setup: truncations 0 and 1 pass the validation but the Legendre setup always fails with code 4 (refuted); it succeeds exactly for truncations of at least 2."
  },
  {
   "property": "C76",
   "status": "partial",
   "theorems": [
    "C76_spectogrd",
    "C76_contents_free",
    "C76_pair",
    "C76_pointwise_partial",
    "C76_pointwise_refuted"
   ],
   "note": "Proved with the series the row length supports. False as stated for short rows: with pl = 2m the wave m enters with half its amplitude and waves beyond pl/2 are dropped (refuted); proved for rows longer than 2T. The FFT itself (hrfft.f90) enters as its defining sums; C91 puts the modelled transform in."
  },
  {
   "property": "C77",
   "status": "proved",
   "theorems": [
    "C77_analysis",
    "C77_gram",
    "C77_roundtrip",
    "C77_specsmooth"
   ],
   "note": "Exact reals; the FFT enters as its defining sums (C91 puts the modelled transform in). The round trip returns the spectrum without the imaginary parts of order 0."
  },
  {
   "property": "C78",
   "status": "partial",
   "theorems": [
    "C78_getgrad",
    "C78_getgrad_pair",
    "C78_getvrtdivspec_partial",
    "C78_components_partial",
    "C78_contents_free_refuted",
    "C78_laplacian",
    "C78_winds"
   ],
   "note": "Proved when a mirrored grid's rows do not shorten towards the equator. False otherwise: the pair loop runs on through rows that do not resolve the order and reads what the cached arrays held (refuted)."
  },
  {
   "property": "C79",
   "status": "partial",
   "theorems": [
    "C79_basis_cache",
    "C79_fft_cache",
    "C79_vector_cache",
    "C79_precision_partial",
    "C79_precision_refuted"
   ],
   "note": "Caches proved. False for the precision: grdtospec, spectogrd, getuv and _invlapspec ask for the type of the already converted array, so auto always returns single (refuted); true of the other operations."
  },
  {
   "property": "C80",
   "status": "proved",
   "theorems": [
    "C80_cape",
    "C80_outflow",
    "C80_levels",
    "C80_defined",
    "C80_dry"
   ],
   "note": "Outcome, buoyancy at every level, outflow bracket and the integral on success; levels beyond num_points unused; definedness is shown with the moist levels' Newton steps as hypothesis (C80_defined) and outright for dry parcels (C80_dry)."
  },
  {
   "property": "C81",
   "status": "partial",
   "theorems": [
    "C81_success",
    "C81_failure_partial",
    "C81_failure_refuted",
    "C81_iterations",
    "C81_levels",
    "C81_ckcd",
    "C81_one_level",
    "C81_outflow_choice_refuted"
   ],
   "note": "Termination, bounds, decomposition and level independence proved. False as stated: a failing run does not always return the missing value in every output; the outflow choice, documented as selecting the diagnostics' source, changes the wind; witnesses given."
  },
  {
   "property": "C82",
   "status": "partial",
   "theorems": [
    "C82_gridded_diagnostics",
    "C82_gridded_diagnostics_with_missing",
    "C82_4d_data",
    "C82_4d_diagnostics",
    "C82_4d_with_missing",
    "C82_4d_diagnostics_with_missing",
    "C82_gridded_data_partial",
    "C82_gridded_with_missing_partial",
    "C82_orders",
    "C82_schedule",
    "C82_complete",
    "C82_flag_refuted",
    "C82_entry_flag_refuted",
    "C82_missing_psl_refuted",
    "C82_interior_refuted",
    "C82_ckcd_refuted",
    "C82_cold_refuted"
   ],
   "note": "Every driver equals the profile routine point by point for every order. False as stated: the flag of the routines without diagnostics is that of the last computed point, a missing sea-level pressure or an interior missing level is computed on, a non-positive Ck/Cd is replaced by one routine only, and cold points differ in the flag; witnesses given."
  },
  {
   "property": "C83",
   "status": "partial",
   "theorems": [
    "C83_reversed",
    "C83_shapes",
    "C83_grid_3d",
    "C83_grid_4d",
    "C83_missing_3d",
    "C83_missing_4d",
    "C83_outputs",
    "C83_log_decompose",
    "C83_actual_levels",
    "C83_outflow",
    "C83_units",
    "C83_profile_missing_refuted",
    "C83_pressure_nan_refuted"
   ],
   "note": "Proved: reversing the levels (with T and r) gives the same result; a call returns exactly when the shapes belong together (otherwise it raises before any compiled call), with outputs of the point shape; every point of a complete 3-D or 4-D grid has the value of the profile call on its column; points with missing SST or no complete level are NaN, and a point whose lowest m levels are missing has the value of the call on the levels above; which values become NaN on output; which parcel each outflow source selects; log_decompose_pi reproduces the compiled decomposition. Not true as stated, refuted with witnesses: a profile with a missing lowest level is not treated like the same column of a grid (it fails with wind 0), and a NaN in the first pressure reverses a surface-first column. Left out: infinities, NaN scalars of a profile, single-precision rounding, the xarray wrapper."
  },
  {
   "property": "C84",
   "status": "proved",
   "theorems": [
    "C84_defined",
    "C84_least_squares",
    "C84_order",
    "C84_units",
    "C84_std"
   ],
   "note": "Real arithmetic; non-finite model values are None; grids are finite numbers."
  },
  {
   "property": "C85",
   "status": "partial",
   "theorems": [
    "C85_gaussian",
    "C85_prior",
    "C85_posterior",
    "C85_result",
    "C85_sign",
    "C85_mass",
    "C85_units",
    "C85_order",
    "C85_reversed",
    "C85_decreasing_refuted",
    "C85_spacing_refuted"
   ],
   "note": "Proved: Gaussian, prior columns, posterior as weighted prior, sign, mass on an exact line, order of the models, units. The claim about the constraint grid is false and refuted: a decreasing grid gives the negated density and a NaN spread; only the first spacing is used."
  },
  {
   "property": "C86",
   "status": "partial",
   "theorems": [
    "C86_spread",
    "C86_range",
    "C86_units",
    "C86_std_refuted",
    "C86_mirror_refuted"
   ],
   "note": "Proved: which index gives the spread, the fallback, existence and range, units. That it is the standard deviation is false and refuted (0 for a density of variance 1/2; mirror images differ)."
  },
  {
   "property": "C87",
   "status": "partial",
   "theorems": [
    "C87_initialisation",
    "C87_capacity_partial",
    "C87_capacity_refuted"
   ],
   "note": "all of the initialisation is proved; the capacity part holds below 2*3^13 (C87_capacity_partial) and is false at that length, where the fourteenth factor goes to fac(16) beyond the declared fac(15) (C87_capacity_refuted; the element still lies inside wsave)"
  },
  {
   "property": "C88",
   "status": "proved",
   "theorems": [
    "C88_forward",
    "C88_total",
    "C88_deterministic"
   ],
   "note": "one sequence, exact arithmetic, exact constants"
  },
  {
   "property": "C89",
   "status": "proved",
   "theorems": [
    "C89_backward",
    "C89_total",
    "C89_deterministic"
   ],
   "note": "one sequence, exact arithmetic, exact constants"
  },
  {
   "property": "C90",
   "status": "proved",
   "theorems": [
    "C90_round_trip",
    "C90_back_and_forth",
    "C90_injective"
   ],
   "note": "one sequence, exact arithmetic, exact constants"
  },
  {
   "property": "C91",
   "status": "proved",
   "theorems": [
    "C91_row_forward",
    "C91_row_backward",
    "C91_row_as_called",
    "C91_synthesis",
    "C91_roundtrip",
    "C91_winds"
   ],
   "note": "exact arithmetic; the row transforms are the models of hrffti, hrfftf and hrfftb, padded or cut to the declared length off the domain where the code calls them"
  },
  {
   "property": "C92",
   "status": "proved",
   "theorems": [
    "C92_synthesis",
    "C92_deterministic"
   ],
   "note": "One field (the k loops repeat it). Real numbers without rounding; the stored functions are an argument, required to vanish on the equator row where odd."
  },
  {
   "property": "C93",
   "status": "proved",
   "theorems": [
    "C93_analysis"
   ],
   "note": "One field; weights must be symmetric about the equator, as Gaussian weights are."
  },
  {
   "property": "C94",
   "status": "proved",
   "theorems": [
    "C94_round_trip"
   ],
   "note": "Orthonormality under the quadrature is a hypothesis on the stored table; it is shown to hold for three Gaussian rows."
  },
  {
   "property": "C95",
   "status": "proved",
   "theorems": [
    "C95_codes",
    "C95_segments",
    "C95_python"
   ],
   "note": "The integer overflow of default integers is not modelled."
  },
  {
   "property": "C96",
   "status": "proved",
   "theorems": [
    "C96_derivative",
    "C96_orders_0_1"
   ],
   "note": "Exact real arithmetic; the powers of two used for scaling are those of the code."
  },
  {
   "property": "C97",
   "status": "proved",
   "theorems": [
    "C97_all_orders"
   ],
   "note": "For mode 0 of legin, the only one shagss1 uses; the colatitudes are an argument."
  },
  {
   "property": "C98",
   "status": "proved",
   "theorems": [
    "C98_orthonormal",
    "C98_functions",
    "C98_transform"
   ],
   "note": "The Gaussian points and weights are hypotheses (gaqd is not part of this claim)."
  },
  {
   "property": "C99",
   "status": "proved",
   "theorems": [
    "C99_codes",
    "C99_places",
    "C99_python"
   ],
   "note": "Sizes as unbounded integers."
  },
  {
   "property": "C100",
   "status": "proved",
   "theorems": [
    "C100_polynomial",
    "C100_derivative",
    "C100_scale"
   ],
   "note": "Real numbers without rounding; the OMP SIMD directives on the loops are not modelled."
  },
  {
   "property": "C101",
   "status": "proved",
   "theorems": [
    "C101_points",
    "C101_unique",
    "C101_inputs",
    "C101_step",
    "C101_residual",
    "C101_sum",
    "C101_kahan",
    "C101_error"
   ],
   "note": "Real numbers without rounding; dzeps(1.0) is any positive number. That the iteration converges to the intended zero is not claimed."
  },
  {
   "property": "C102",
   "status": "proved",
   "theorems": [
    "C102_zeros",
    "C102_fixed",
    "C102_rule",
    "C102_small",
    "C102_stationary",
    "C102_exists"
   ],
   "note": "About the part of gaqd after the search, at exact zeros, and about the search started at a zero; convergence of the search from its guesses is not claimed."
  },
  {
   "property": "C103",
   "status": "proved",
   "theorems": [
    "C103_instance",
    "C103_rejected",
    "C103_series",
    "C103_point_value"
   ],
   "note": "Exact real arithmetic; Gaussian grid, stored functions."
  },
  {
   "property": "C104",
   "status": "proved",
   "theorems": [
    "C104_projection",
    "C104_determined"
   ],
   "note": "Exact real arithmetic; the points only need their symmetry."
  },
  {
   "property": "C105",
   "status": "partial",
   "theorems": [
    "C105_determined_refuted",
    "C105_leftover"
   ],
   "note": "False as stated: orders from min(nlon/2+1, nlat) up are never written by shags, so grdtospec returns half of whatever the new arrays held (C105_leftover); refuted for the default truncation with nlat = 5, nlon = 4. Holds below that bound (C104_determined)."
  },
  {
   "property": "C106",
   "status": "proved",
   "theorems": [
    "C106_round_trip",
    "C106_identity"
   ],
   "note": "Assumes the points and weights are exactly Gaussian (C102); exact real arithmetic."
  },
  {
   "property": "C107",
   "status": "proved",
   "theorems": [
    "C107_grdtospec",
    "C107_spectogrd",
    "C107_latitudes",
    "C107_no_latitude"
   ],
   "note": "spectogrd for fewer than 2^21 coefficients; longer spectra are in C52."
  },
  {
   "property": "C108",
   "status": "proved",
   "theorems": [
    "C108_smooth",
    "C108_filter",
    "C108_rejected"
   ],
   "note": "Exact real arithmetic; Gaussian grid, stored functions."
  },
  {
   "property": "C109",
   "status": "proved",
   "theorems": [
    "C109_values",
    "C109_exact",
    "C109_rejected"
   ],
   "note": "Exact real arithmetic; both grids Gaussian with stored functions."
  },
  {
   "property": "C110",
   "status": "partial",
   "theorems": [
    "C110_safe_refuted",
    "C110_determined_refuted",
    "C110_factors_read_outside"
   ],
   "note": "False as stated, refuted twice: a truncation beyond the new grid with factors makes multsmoothfact read past the factors (C110_factors_read_outside for all sizes), and from rows carrying fewer orders than the new rows the result depends on uninitialised memory. C109_values gives the condition under which it holds."
  },
  {
   "property": "C111",
   "status": "proved",
   "theorems": [
    "C111_value",
    "C111_getlegfunc",
    "C111_determined",
    "C111_point",
    "C111_grid_point"
   ],
   "note": "All degrees and integer orders, exact arithmetic, OMP SIMD directives read as comments."
  },
  {
   "property": "C112",
   "status": "partial",
   "theorems": [
    "C112_scaled",
    "C112_wrong",
    "C112_directives_refuted",
    "C112_undefined"
   ],
   "note": "False as stated: with the PRIVATE(t1, nex) and PRIVATE(fnmh) clauses in force as the OpenMP standard defines them, every zonal function of degree 2 or more is divided by the leading coefficient of the Legendre polynomial (C112_scaled, C112_wrong), and higher orders depend on undefined copies (C112_undefined)."
  },
  {
   "property": "C113",
   "status": "proved",
   "theorems": [
    "C113_table",
    "C113_derivative",
    "C113_orthogonal",
    "C113_rule_exists"
   ],
   "note": "Over the reals, colatitudes taken as gaqd's output; the orthogonality needs exact Gaussian points (C113_rule_exists: they exist; gaqd's search reaches them within its tolerance, C101)."
  },
  {
   "property": "C114",
   "status": "proved",
   "theorems": [
    "C114_roundtrip",
    "C114_gradient",
    "C114_winds"
   ],
   "note": "Over the reals, with the models of hrfftf/hrfftb (C88-C91) for the rows and the table proved in C113; exact Gaussian points. C114_gradient and C114_winds take the table by its entries, which C113_table provides."
  },
  {
   "property": "C115",
   "status": "proved",
   "theorems": [
    "C115_pressure",
    "C115_thickness",
    "C115_order",
    "C115_accepts",
    "C115_numpy"
   ],
   "note": "Model HL, exact arithmetic; coordinates and attributes not modelled; a coefficient dimension that shares its name and size with a dimension of the surface pressure is left open."
  },
  {
   "property": "C116",
   "status": "partial",
   "theorems": [
    "C116_dataarray",
    "C116_numpy_never",
    "C116_compatible_refuted"
   ],
   "note": "Holds for DataArrays (C116_dataarray). Refuted for numpy arrays: the wrapper passes lev_dim=None and output_dims=None, which the numpy path rejects, so it always raises."
  }
 ]
}