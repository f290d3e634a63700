# Formal model of Skyborn's numerical kernels

Target: `QianyeSu/Skyborn` (source text in `/repo`), proof assistant Rocq/Coq 8.16.1.
All Coq sources are in `rocq/theories`, one group of files per area:

* `X_Model.v`  - executable Gallina model of the code (each definition cites file and lines);
* `X_Spec.v`   - the independent specification, when it is bigger than a few lines;
* `X_Proofs*.v` - lemmas;
* `X_Props.v`  - the property theorems, concrete examples that meet their hypotheses, and a
  `Print Assumptions` per theorem.

Theorem names: `..._refuted` states that a plausible reading of the claim is false of the code, with
a concrete witness; `..._partial` marks a theorem weaker than the property it stands beside.
The status of every property is in `MANIFEST.json`; edits of the model that were tried against the
theorems are in `seeded/LOG.jsonl`.

## Trusted base

1. Coq's kernel (8.16.1), including `vm_compute` (used for closed examples and refutation witnesses).
2. The axioms printed by `Print Assumptions` for each theorem.  Most theorems are
   "Closed under the global context".  Theorems about real numbers list axioms of the standard
   library's reals and nothing else: `ClassicalDedekindReals.sig_forall_dec`,
   `ClassicalDedekindReals.sig_not_dec`, `FunctionalExtensionality.functional_extensionality_dep`
   and, in a few cases, `Classical_Prop.classic`.  The complete list is at the end of this file.
   No axiom of our own, no axiom of another library.
3. That the model says what the code does.  The modelling decisions are:
   * *Numbers.*  float64 data are modelled by canonical rationals `Qc` (finite floats are
     rationals, and comparisons, `min`, `max`, sign tests and index arithmetic on them are exact,
     so algorithms that only compare - sorting, S statistic, ranks, bracketing, masks - are
     modelled exactly).  Arithmetic (`+ - * /`) is exact instead of rounded; theorems whose
     statement depends on arithmetic are about the real-number algorithm, not about rounding.
     Several kernels are written over an arbitrary record of operations (`arith`, `fl`, `rl`, `ol`);
     theorems quantified over that record hold of the rounded code too.  Where rounding is the
     point (truncation recovery in C52, the double-precision remainder in C48) the IEEE operations
     of `Floats.SpecFloat` are used.
   * *NaN / missing values* are explicit: either `option Qc` (`None` = NaN) or a sentinel
     argument exactly as in the code.  Infinities are not modelled unless said.
   * *Transcendental functions* (`log`, `sin`, `sqrt`, `**`, normal and Student cdf) are either
     function arguments with the used facts as hypotheses, or Coq reals.
   * *Integers* are `nat`/`Z` unless the property is about overflow, in which case the 32-bit
     wrap-around is explicit.
   * *Loops* are folds or fuelled recursions; where fuel is used, termination within the fuel is
     proved, so the fuel does not weaken the theorem.
   * *Array accesses* in kernels are checked: an access outside the array makes the model return
     `None`, so a theorem that says `Some ...` also says that all accesses are in bounds.
   * *Python state and exceptions* (caller arrays mutated in place, lazily cached attributes) are
     explicit state and explicit error values.

Not modelled anywhere: numpy/xarray/dask internals (only the documented meaning of the operations
used), the C glue that unpacks Python arguments (unless named below), OpenMP scheduling, SPHEREPACK
analysis and synthesis themselves, plotting, CDO bindings.

## Areas: what is modelled, what is left out

| files | properties | modelled source | left out or simplified |
|-------|-----------|-----------------|------------------------|
| MKSort, MKStat | C01-C11, C53, C54 | `calc/mann_kendall/fortran/mann_kendall_core.f90`: sorting and selection kernels, S, ties, variances, Sen slopes, ranks, autocovariance, grouped and partial statistics | rounding; OpenMP |
| MKTest | C12, C13 | `mann_kendall/core.py` (test = "original", both slope methods), batch helpers of `regression.py`, batch entry points | other tests' drivers, xarray output |
| GF | C14-C19, C21 | `gridfill/_gridfill.pyx` (in-place relaxation sweep by sweep, initial guesses) and `fill` of `gridfill.py` | cubes (iris) interface |
| AX | C20, C41, C44 | axis bookkeeping of gridfill, `windspharm/tools.py`, `troposphere/core.py` | metadata |
| I2P | C22-C24 | `int2p_kernels.f90`, `interp_pressure_1d` | keyword aliases, xarray |
| VH | C25-C27, C29, C55, C56 | `vinth2p_kernels.f90` and eager drivers in `interpolation.py` | dtype restoration, dask |
| IS | C28 | `isentropic_kernels.f90` and eager driver | infinities |
| LM | C30 | `linmsg_dp.f90` | - |
| LI | C31, C57, C58 | `linint2.f90`, workspace sizes of `linint2.pyf` | - |
| TG | C32-C34, C59 | `grid2triple.f90`, `triple2grid.f90`, their C entry points and Python wrappers | infinities, dask |
| RG | C35-C38, C60 | `regrid_module.c` and its callers in `regridding.py` | allocation failures, `regrid_dataset` bookkeeping |
| TP | C39, C40, C61 | `stattrop_dp.f`, `tropopause_height.f90`, range test of `stndAtmUS76_dp.f` | - |
| GW | C42, C43 | `z2geouv.f90`, `geostrophic/core.py` | sign of a zero |
| DC | C45 | `dcape.f90`, dispatch in `dcape/core.py` | C glue |
| CA | C46-C48 | `calculations.py`: regression, correlations, longitude conversion | infinities; lstsq by contract |
| GR | C49 | `gradients.py` | rounding |
| LZ | C50 | lazy exports of `skyborn/__init__.py`, `calc/__init__.py` | the import system beyond parents/once/bind |
| LC | C51 | `causality.py`: liang, liang_causality, signif_* | surrogate generators and quantiles are arguments |
| RC | C62-C68 | `rcm2rgrid.f90`, `rcm2points.f90`, `rcm_geodesy.f90`, missing-value handling of `rcm2rgrid.py`, `rcm2points.py` | rounding; the kernels take the distance as an argument, its real formula is in RC_Geo |
| GB | C69-C74 | `growth_rate_kernels.f90`, single-profile and batched paths of `growth_rate/core.py` with an explicit tropopause pressure | rounding; the LAPACK eigenvalue solver is an argument; bounds on growth assume it returns eigenvalues of the pencil; the tropopause search inside the wrapper and the latitude averaging are left out |
| RS | C75-C79 | `reduced_gaussian_scalar.f90` (tables, checks, analysis, synthesis, gradients, vorticity and divergence), truncation check, table caches, getuv, specsmooth and output types of `reduced_gaussian.py` | single-precision rounding; the real FFT of `hrfft.f90` enters as its defining sums (discharged by C91); the Gaussian points and the values of `legin` are arguments, the round trips assume the table orthonormal (shown for a concrete one in RS_Table, in general by C113); OpenMP scheduling; failed allocations inside a parallel region |
| PI | C80-C83 | `tropical_cyclone_potential_intensity.f90`: CAPE kernel, solver, profile, 3-D and 4-D drivers with and without missing data and diagnostics; `GPI/core.py`: cleaning, level order, shape checks, dispatch, outputs, log decomposition | single-precision rounding; infinities and NaN scalars of a profile; the xarray wrapper; operations without a real value (NaN, Inf) end the modelled run; thread schedules enter as orders of the points |
| EC | C84-C86 | `calc/emergent_constraints.py`: `gaussian_pdf`, `_fit_linear_relationship`, `_prediction_std`, prior, posterior, `_calculate_std_from_pdf` | rounding and the choice of dtype; non-finite model values are absent values, grids and densities are numbers; warnings; the xarray containers |
| FF | C87-C91 | all of `hrfft.f90`: `hrffti`/`hrfti1`, `hrfftf`/`hrftf1`, `hradf2`-`hradf5`, `hradfg`, `hrfftb`/`hrftb1`, `hradb2`-`hradb5`, `hradbg`; C91 puts them into the RS theorems | rounding, the decimal constants stand for the numbers they approximate; the leading dimension (several sequences at once); the factors stored as reals inside wsave |
| GS | C92-C95 | `shsgs.f90` and `shags.f90`: the checks, the workspace places, `shsgs1`, `shags1` with their full-sphere and half-sphere procedures; workspace lengths of `spherical_harmonics.py` | rounding; the loop over fields; the weights and Legendre functions are arguments |
| LG | C96-C99 | `sphcom.f90` `dnlfk`, `dnlft`, `legin`, `legin1`; `shags.f90` `shagsi`, `shagsp`, `shagsp1`, `shagss1` and their checks and places; the lengths passed by `spherical_harmonics.py` | rounding (also the conversion of double precision to real); the points and weights are arguments (area GQ); `shsgsi` is the same code and is not modelled again |
| GQ | C100-C102 | `gaqd.f90` `gaqd`, `cpdp`, `tpdp`, `kahan_sum`, with the coefficients kept in the output arrays | rounding; `dzeps` (its value is an argument); the OMP SIMD directives, which claim independence of iterations that are not independent in `tpdp` |
| ST | C103-C107 | `spherical_harmonics.py` `__init__` (Gaussian, stored), `grdtospec`, `spectogrd`, their checks and reshapes, `gaussian_lats_wts`, on the transforms of GS, LG, GQ, SH | rounding and the float32 conversions; the vector tables prepared by `__init__`; the other grid types and `legfunc="computed"` |
| SM | C108-C110 | `spherical_harmonics.py` `specsmooth`, `regrid` on the transforms of ST, with `multsmoothfact` | as ST; both grids Gaussian with stored functions |
| AL | C111, C112 | `alf.f90` `alfk`, `lfpt`; `getlegfunc.f90`; the private clauses of `alfk` as a second reading | rounding; `lfim`, `lfin`; the other OMP SIMD directives of these files, which are read as comments |
| RL | C113, C114 | `reduced_gaussian_scalar.f90:169-293` with the values of `legin` (on top of LG_Model's `shagsp1` and `legin1` and RS_Model2's checks and derivative table), sin_theta of `reduced_gaussian.py:68-81` | single-precision rounding; the colatitudes are an argument (gaqd's output), and the orthogonality is for exact Gaussian points; the parts of wshags are separate lists |
| HL | C115, C116 | `interpolation.py` `pressure_at_hybrid_levels`, `delta_pressure_hybrid`, `_pressure_from_hybrid` and their naming helpers (`:120-206`, `:590-818`, `:1072-1082`), on top of VH's columns | rounding; coordinates, attributes, warnings, lazy or unit-backed input; coefficients not one-dimensional; xarray itself: `rename` onto a present name is taken to raise ValueError, and an array with a repeated dimension name is left open |
| SH | C52 | triangular storage, spectral Laplacian, smoothing, truncation recovery | the transforms |

The header comment of each `X_Model.v` gives the details.

## Proof ideas

| id | proof idea |
|----|-----------|
| C01, C02 | both S loops equal a declarative pair count; bound by counting; pair count under reversal / monotone maps |
| C03, C04 | loop invariants of Hoare partition, quicksort, insertion sort, quickselect; permutation + sortedness + window bounds; termination by fuel |
| C05, C06, C08 | lag-band layout is a bijection onto the pairs; median of a multiset; equivariance on the multiset |
| C07, C09 | runs of a sorted list = multiplicities; index sort is a sorted permutation |
| C10 | thresholds by arithmetic; witnesses by computation |
| C11, C53, C54 | sum-of-squares identities, covariance is a Gram matrix |
| C12, C13 | case analysis with a monotone cdf; the chunk loop covers [0,n) once |
| C14-C19, C21 | invariants by induction on sweeps (in place, Gauss-Seidel order); scan invariants for the initial guesses |
| C20, C41, C44 | permutation lemmas by induction on rank; list reversal |
| C22-C29, C55, C56 | search invariants; walk vs bisection; telescoping; mixed-radix bijection |
| C30, C31, C57, C58 | gap scanning and cursor invariants |
| C32-C34, C59 | filter/enumerate; state + error model |
| C35-C38, C60 | search invariant, convexity, telescoping double sums |
| C39, C40, C61 | first-match lemmas; logarithm series with remainder for the layer boundaries of the standard atmosphere |
| C42, C43 | reflection argument |
| C45 | filter lemmas, order-only reasoning over any arithmetic |
| C46-C49, C51 | Cauchy-Schwarz, completing the square, modular arithmetic, normal equations |
| C50 | invariant over histories of a state machine |
| C62-C68 | pure searches behind the checked loops; windows around a bracket contain every hit on spaced axes; convexity of weighted means |
| C75-C79 | row tiling; parity folds a pair of rows into even and odd sums; the row DFT of a resolved series gives back its coefficients; quadrature orthogonality of the table and its derivative |
| C69-C74 | summation by parts on the weighted grid; quadratic forms of an eigenpair; scans with a last-turn invariant; exact equality of the two solver grids |
| C80-C83 | loop invariants with fuel; exit conditions of the Newton and fixed-point loops; columns of permuted loops; two-level soundings with explicit exp/ln bounds as witnesses |
| C84-C86 | the misfit of any line splits into that of the fit plus two squares; scans with a first-best invariant; the posterior as an index sum, so that units and reversals act term by term |
| C87-C91 | every statement block of a pass writes distinct positions of one array from another, so its result is read off position by position; a pass turns half-complex transforms of the subsequences into that of the interleaved sequence by splitting the sum along the remainders; the general radix by the reflection of the rotation index; a backward pass undoes the forward pass of the same radix position by position; the sieve of the factorisation gives termination and the kinds of factors |
| C92-C95 | an array is followed as a function of its two subscripts (`view`); one column at a time: the even and odd sums land in the northern and southern rows and the reduction turns them into the series with the parity of the functions; the row transform by C88/C89; analysis by pairing rows i and nlat+1-i; the round trip by the discrete Fourier orthogonality and the orthonormality of the table |
| C96-C99 | derivatives of Legendre polynomials by recursion (`D`), with the differential equation; Fourier series of P_n and P_n' with products of central binomial coefficients, which satisfy the recursion of `dnlfk`; the recursion in the order by the recursions of `D` and the normalisation; the three planes followed through any rotation; orthonormality by the identity of integration by parts on polynomials |
| C100-C102 | the cosine series of P_n from LG; the loop over points by an invariant on which elements still hold coefficients; uniqueness by induction from the equator; Gauss's theorem through Christoffel-Darboux, the root count of polynomials and reduction modulo P_n; n zeros by interlacing and signs of factored polynomials; stationarity by the Legendre equation |
| C103-C107 | index arithmetic of the reshapes; the packed coefficients of SH unpacked into the arrays of GS; the functions replaced by Pbar through LG; the sum over pairs equal to the two sums of the series; C105 by choosing the memory |
| C108-C110 | composition of C103 and C104 with the smoothing kernel of SH; orders that the synthesis leaves out hide the leftover memory; C110 by two memories whose results differ in the sectoral term of degree 4 |
| C111, C112 | the Fourier series of each function exists by the recursion over orders of LG, which also gives its highest coefficient; substituting it in Legendre's differential equation and projecting on each wave (orthogonality on 2n+5 equally spaced points) gives the three-term recursion of `alfk`; C112 because the private copies leave the scaled product at 1 |
| C113, C114 | the column loop keeps the rows reached from both ends; legin by C97's lemma; the derivative from the lowering identity (1-x^2) D' = -(n-m) x D_n + (n+m) D_(n-1) and the ratio of the norms; gradient orthogonality by integrating (1-x^2)^m D_n (-m x D_n' + (1-x^2) D'_n') as a polynomial of degree n+n'+1, exact under the rule; then C77, C78 through the row transforms of C91 |
| C52 | triangular-number bijection; error bounds of the rounded square root |

## Assumptions of every claimed theorem (output of `Print Assumptions`)

### Closed under the global context (359 theorems)

`C01_pair_kernel`, `C01_fused_kernel`, `C01_tau_bound`, `C02_reverse`, `C02_increasing_map`, `C02_decreasing_map`, `C02_shift`, `C02_negate`, `C03_sort_real_inplace`, `C03_sort_indices_by_values`, `C03_quicksort_window`, `C03_median_of_three`, `C04_select_kth_real`, `C04_kth_smallest_unique`, `C05_sen_slope`, `C05_sen_slope_fused`, `C05_sen_between`, `C06_affine`, `C06_reverse`, `C07_variance`, `C07_order_independent`, `C07_nonneg_zero_iff`, `C07_no_ties`, `C07_nonzero_score_positive_variance`, `C08_grouped_sen`, `C08_slope_count`, `C08_period_one`, `C09_average_ranks`, `C09_rank_vector`, `C09_rank_sum`, `C10_sen_products_fit`, `C10_sen_products_refuted`, `C10_hamed_rao_exact`, `C10_hamed_rao_refuted`, `C11_yue_wang_formula`, `C11_yue_wang_all_lags`, `C11_yue_wang_zero_acf`, `C11_yue_wang_limited_refuted`, `C11_hamed_rao_formula`, `chunks_partition`, `default_chunk_valid`, `chunk_zero_raises`, `fill_never_changes_observed`, `iteration_never_changes_observed`, `stencil_indices`, `solver_reads_only_inside`, `sweeps_maximum_principle`, `fill_maximum_principle`, `converged_flag_truthful`, `converged_solves_laplace`, `sweep_residual_is_largest_change`, `converged_with_itermax_0_refuted`, `converged_with_nan_refuted`, `zero_residual_iff_harmonic`, `harmonic_is_fixed`, `sweep_is_gauss_seidel`, `laplace_solution_unique`, `constant_field_filled_with_constant`, `slices_filled_independently`, `early_exit_iff_nothing_missing`, `gridfill_prep_elements`, `gridfill_recover_elements`, `gridfill_round_trip`, `gridfill_prep_rejects`, `fill_any_rank_keeps_observed`, `fill_any_rank_is_slicewise`, `windspharm_recover_elements`, `windspharm_round_trip`, `windspharm_duplicate_labels_refuted`, `windspharm_capital_label_refuted`, `initial_guess_in_row_range`, `zonal_linear_skipped_rows`, `zonal_linear_noncyclic_refuted`, `zonal_mean_empty_row_refuted`, `int2p_at_level`, `int2p_between`, `int2p_outside_missing`, `int2p_missing_target`, `int2p_extrapolates`, `int2p_log_low_extrapolation_refuted`, `int2p_raises`, `int2p_depends_only_on_levels`, `int2p_source_reversed`, `int2p_targets_reversed`, `int2p_complete_pressures_visible`, `int2p_misread_order`, `int2p_missing_first_pressure_refuted`, `int2p_missing_level_absent`, `int2p_missing_second_pressure_refuted`, `hybrid_paths_agree_extrapolating`, `hybrid_paths_agree_partial`, `hybrid_paths_nan_refuted`, `hybrid_values`, `hybrid_no_invention_partial`, `hybrid_missing_surface`, `hybrid_above_top_refuted`, `hybrid_extrapolated_values`, `thickness_nonneg`, `thickness_layer`, `thickness_total`, `thickness_total_not_monotone_refuted`, `isentropic_values`, `isentropic_value_unique`, `isentropic_in_range`, `isentropic_outside`, `isentropic_order_free`, `isentropic_order_duplicates_refuted`, `flat_addresses_bijective`, `flat_address_exact32`, `flat_address_int32_refuted`, `linmsg_values`, `linmsg_values_unique`, `linmsg_short_gaps_equal`, `linmsg_valid_unchanged`, `linmsg_interior_between`, `linmsg_long_gap_kept`, `linmsg_trailing_limit_refuted`, `lin2int1_pointwise`, `linear_at_determined`, `linear_at_in_range`, `grid2triple_values`, `grid_to_triple_values`, `grid_to_triple_sentinel_refuted`, `grid_to_triple_array`, `triple_to_grid_array`, `grid_to_triple_array_refuted`, `grid_to_triple_exception_refuted`, `triple_to_grid_exception_refuted`, `trip2grd3_values`, `trip2grd3_nearest`, `trip2grd2_values`, `triple2grid_inside`, `triple2grid_outside`, `triple2grid_empty`, `nearest_node_refuted`, `uninitialised_slope_refuted`, `first_not_nearest_refuted`, `farther_kept_refuted`, `exact_node_missed_refuted`, `domain_shift_refuted`, `upper_edge_refuted`, `two_point_axis_overrun`, `bilinear_values`, `bilinear_determined`, `bilinear_at_node`, `bilinear_field_exact`, `bilinear_in_range`, `bilinear_identity`, `bilinear_paths_agree`, `bilinear_nan_rule`, `bilinear_nan_identity_refuted`, `bilinear_target_order_refuted`, `bilinear_seam_refuted`, `bilinear_planes`, `latitude_weights_values`, `latitude_weights_rows`, `latitude_weights_conserve`, `latitude_weights_same_grid`, `longitude_weights_rows`, `longitude_weights_values`, `circle_common_determined`, `longitude_weights_conserve`, `longitude_weights_same_grid`, `longitude_weights_wide_refuted`, `longitude_weights_regional_refuted`, `longitude_weights_two_refuted`, `conservative_values`, `mean_at_determined`, `mean_at_in_range`, `mean_at_missing`, `conservative_paths_agree`, `conservative_total`, `search_first_tropopause`, `first_tropopause_determined`, `column_hpa`, `column_work_independent`, `profile_is_column`, `grids_are_columns`, `lapse_at_top_refuted`, `profile_order_refuted`, `success_flag_pa_refuted`, `transpose_then_argsort_restores`, `trop_wmo_columns`, `trop_wmo_no_spatial_dim_refuted`, `trop_wmo_one_spatial_dim_refuted`, `geostrophic_kernel_flip`, `geostrophic_wind_slicewise`, `geostrophic_wind_reversed_input`, `geostrophic_wind_flip_refuted`, `geostrophic_wind_2d_order_refuted`, `geostrophic_missing_in_missing_out`, `geostrophic_small_grid`, `geostrophic_is_local`, `geostrophic_values`, `geostrophic_missing_iff`, `geostrophic_shift`, `geostrophic_exact_on_linear`, `geostrophic_edge_value_refuted`, `geostrophic_wind_missing_refuted`, `geostrophic_uneven_longitudes_refuted`, `cyclic_detection`, `geostrophic_repeated_meridian_refuted`, `geostrophic_speed`, `reverse_latdim_involution`, `order_latdim_orders`, `order_latdim_idempotent`, `order_latdim_unsorted_refuted`, `dcape_profile_value`, `dcape_nan_or_nonnegative`, `dcape_few_levels_nan`, `dcape_ignores_unusable`, `dcape_upside_down`, `dcape_upside_down_same_ends_refuted`, `dcape_order_matters_refuted`, `dcape_grid_columns`, `dcape_dispatch`, `dcape_start_coldest`, `dcape_start_missing`, `dcape_levels_below_start`, `dcape_one_level_nan`, `C46_independent_of_other_points_refuted`, `C48_wrap`, `C48_stable`, `C48_idempotent_and_inverse`, `C48_documented_range_refuted`, `C48_double_range_refuted`, `C49_linear_exact`, `C49_wrappers`, `C49_quadratic_exact`, `C49_linear_error`, `C49_linear_in_field`, `C49_constants`, `C49_degenerate`, `C49_zonal_default_axes_raise`, `C49_zonal_positive_axes_raise`, `C49_zonal_factor`, `C49_any_monotonic_refuted`, `C49_small_units_refuted`, `C49_zonal_integer_field_refuted`, `C50_history_independent`, `C50_exports_resolve`, `C50_other_names`, `C50_unknown_names_raise`, `C50_unknown_always_raise_refuted`, `C50_names`, `C52_storage_bijection`, `C52_loops_visit_storage_order`, `C52_getspecindx`, `C52_truncation_fits_refuted`, `C52_result_determined_refuted`, `C52_invlap_in_bounds_refuted`, `C52_regrid_safe_refuted`, `C52_vrtdiv_is_vrt_and_div`, `C53_correlated_stats`, `C53_diagonal`, `C53_symmetric`, `C53_variance_nonneg`, `C54_partial_stats`, `C54_fused_agrees`, `C54_variance_nonneg`, `C54_rho_bound`, `C54_self_covariate`, `geopotential_flat_is_column`, `geopotential_heights_increase`, `sigma_paths_agree`, `sigma_values`, `linint1_pyf_overrun`, `linint2pts_pyf_overrun`, `linint1_workspace_refuted`, `linint1_values`, `linint1_rejects`, `wrapped_uniform`, `linint2_values`, `grid_value_in_range`, `linint2pts_values`, `point_at_in_range`, `cell_determined`, `linint1_stale_refuted`, `linint1_single_descending_refuted`, `linint2_mixed_refuted`, `linint2_stale_column_refuted`, `triple_to_grid_layout`, `triple_to_grid_transposed`, `round_trip_refuted`, `nearest_first_best`, `nearest_gather`, `rcm2rgrid_safe`, `rgrid2rcm_safe`, `rcm2points_safe`, `rcm2rgrid_value`, `rcm2rgrid_exact`, `rcm2rgrid_nodes`, `rgrid2rcm_value`, `rgrid2rcm_nodes`, `rcm2points_value`, `rcm2points_exact`, `rcm2rgrid_exact_refuted`, `rcm2rgrid_close_nodes_refuted`, `rcm2rgrid_paths`, `batch_anchors`, `rgrid2rcm_paths`, `rcm2rgrid_paths_refuted`, `rcm2rgrid_two_columns_refuted`, `rcm2rgrid_range`, `rgrid2rcm_range`, `rcm2points_range`, `rgrid2rcm_ncrit_refuted`, `rcm2points_nan_refuted`, `rgrid2rcm_bilinear`, `rgrid2rcm_closing_edge_refuted`, `rcm2rgrid_outside`, `rgrid2rcm_outside`, `rcm2points_monotone_refuted`, `rcm2points_extrapolation_refuted`, `wrapper_result`, `rcm2rgrid_input_partial`, `rcm2rgrid_input_refuted`, `rcm2points_input_partial`, `rcm2points_input_refuted`, `interp_codes`, `interp_values`, `interp_source_reversed`, `interp_within`, `interp_agrees`, `batch_is_single_partial`, `single_kernel_inputs`, `baroc_kernel_codes`, `barot_call_reversed`, `one_bad_profile_refuted`, `mixed_units_refuted`, `negative_tropopause_refuted`, `cold_without_tropopause_refuted`, `C75_spectral_order`, `C75_rows_tile`, `C75_codes`, `C75_setup`, `C75_setup_refuted`, `C75_setup_low`, `C79_basis_cache`, `C79_fft_cache`, `C79_vector_cache`, `C79_precision_partial`, `C79_precision_refuted`, `C82_orders`, `C82_schedule`, `C95_codes`, `C95_segments`, `C95_python`, `C99_codes`, `C99_places`, `C99_python`, `C115_pressure`, `C115_thickness`, `C115_order`, `C115_accepts`, `C115_numpy`, `C116_dataarray`, `C116_numpy_never`, `C116_compatible_refuted`

### Axioms: `ClassicalDedekindReals.sig_forall_dec`, `FunctionalExtensionality.functional_extensionality_dep` (21 theorems)

`significance_matches_p`, `p_value_range`, `std_layer`, `baroc_assembled`, `baroc_fjortoft`, `baroc_rayleigh`, `baroc_shear_bound`, `baroc_conjugate`, `baroc_galilean`, `baroc_zero_wavenumber_singular`, `eigenvalue_reduction`, `barot_reduction`, `running_mean`, `running_mean_within`, `baroc_reduction`, `baroc_reduction_runs`, `C83_outputs`, `C83_units`, `C83_pressure_nan_refuted`, `C96_derivative`, `C101_kahan`

### Axioms: `ClassicalDedekindReals.sig_forall_dec`, `ClassicalDedekindReals.sig_not_dec`, `FunctionalExtensionality.functional_extensionality_dep` (144 theorems)

`z_score_rule`, `z_score_odd`, `z_score_monotone`, `z_score_degenerate`, `test_result`, `test_result_determined`, `test_decision`, `tau_range`, `test_reversed`, `test_rescaled`, `trend_with_gap_refuted`, `yue_wang_limited_lag_nan_refuted`, `gridded_equals_scalar`, `chunk_size_irrelevant`, `negative_chunk_size_refuted`, `search_angle_correct`, `second_pass_angle_refuted`, `C46_value`, `C46_range`, `C46_affine_invariance`, `C46_sign_and_symmetry`, `C46_only_common_times`, `C46_linear_data`, `C46_raises`, `C46_pearson_correlation`, `C47_least_squares`, `C47_slope`, `C47_constant_predictor`, `C47_input_unchanged`, `C47_input_after_exception`, `C47_input_unchanged_refuted`, `C47_missing_predictor_refuted`, `C51_normalised`, `C51_affine`, `C51_value`, `C51_returns`, `C51_causality`, `C51_exact_fit_refuted`, `C52_truncation_exact_arithmetic`, `C52_point_value`, `barot_assembled`, `barot_in_bounds`, `baroc_in_bounds`, `barot_fjortoft`, `barot_rayleigh`, `barot_shear_bound`, `barot_stable_zero`, `barot_growth_bounded`, `baroc_growth_bounded`, `barot_conjugate`, `barot_mirror`, `barot_galilean_refuted`, `baroc_stable_fails`, `C75_table_parity`, `C75_table_values`, `C76_spectogrd`, `C76_contents_free`, `C76_pair`, `C76_pointwise_partial`, `C76_pointwise_refuted`, `C77_analysis`, `C77_gram`, `C77_roundtrip`, `C78_getgrad`, `C78_getgrad_pair`, `C78_getvrtdivspec_partial`, `C78_components_partial`, `C78_contents_free_refuted`, `C78_laplacian`, `C84_defined`, `C84_least_squares`, `C84_order`, `C84_units`, `C84_std`, `C85_gaussian`, `C85_prior`, `C85_posterior`, `C85_result`, `C85_sign`, `C85_mass`, `C85_units`, `C85_order`, `C85_reversed`, `C85_decreasing_refuted`, `C85_spacing_refuted`, `C86_spread`, `C86_range`, `C86_units`, `C86_std_refuted`, `C86_mirror_refuted`, `C87_initialisation`, `C87_capacity_partial`, `C87_capacity_refuted`, `C88_forward`, `C88_total`, `C88_deterministic`, `C89_backward`, `C89_total`, `C89_deterministic`, `C90_round_trip`, `C90_back_and_forth`, `C90_injective`, `C91_row_forward`, `C91_row_backward`, `C91_row_as_called`, `C91_synthesis`, `C91_roundtrip`, `C92_synthesis`, `C92_deterministic`, `C93_analysis`, `C94_round_trip`, `C96_orders_0_1`, `C97_all_orders`, `C98_orthonormal`, `C98_functions`, `C98_transform`, `C100_polynomial`, `C100_derivative`, `C100_scale`, `C101_unique`, `C101_step`, `C101_residual`, `C101_sum`, `C102_fixed`, `C102_stationary`, `C104_projection`, `C104_determined`, `C105_leftover`, `C107_grdtospec`, `C108_rejected`, `C109_rejected`, `C111_value`, `C111_getlegfunc`, `C111_determined`, `C111_point`, `C112_scaled`, `C112_wrong`, `C112_directives_refuted`, `C112_undefined`, `C113_table`, `C113_derivative`, `C113_orthogonal`, `C114_roundtrip`, `C114_gradient`

### Axioms: `ClassicalDedekindReals.sig_forall_dec`, `ClassicalDedekindReals.sig_not_dec`, `Classical_Prop.classic`, `FunctionalExtensionality.functional_extensionality_dep` (101 theorems)

`crossing_in_between`, `above_450_refuted`, `pressure_inside_column_refuted`, `wmo_definition_refuted`, `success_hpa`, `success_pa`, `dcape_real_value`, `dcape_real_sign`, `dcape_parcel_warms`, `dcape_lcl`, `dcape_moist_rate`, `dcape_rk4_cubic`, `dcape_rk4_linear`, `C52_truncation_rounded`, `C52_truncation_any_length_partial`, `C52_truncation_any_length_double`, `C52_onedtotwod`, `C52_roundtrip`, `C52_roundtrip_matrices`, `C52_validated_is_safe`, `C52_laplacian`, `C52_inverse_laplacian`, `C52_smoothing`, `C52_regrid_safe`, `C52_vrtdiv_roundtrip`, `C52_gradient`, `std_height`, `std_height_base`, `std_height_refuted`, `rcm2points_radius_refuted`, `dgcdist_central_angle`, `dgcdist_symmetric`, `dgcdist_bounds`, `C77_specsmooth`, `C78_winds`, `C80_cape`, `C80_outflow`, `C80_levels`, `C80_defined`, `C80_dry`, `C81_success`, `C81_failure_partial`, `C81_failure_refuted`, `C81_iterations`, `C81_levels`, `C81_ckcd`, `C81_one_level`, `C81_outflow_choice_refuted`, `C82_gridded_diagnostics`, `C82_gridded_diagnostics_with_missing`, `C82_4d_data`, `C82_4d_diagnostics`, `C82_4d_with_missing`, `C82_4d_diagnostics_with_missing`, `C82_gridded_data_partial`, `C82_gridded_with_missing_partial`, `C82_complete`, `C82_flag_refuted`, `C82_entry_flag_refuted`, `C82_missing_psl_refuted`, `C82_interior_refuted`, `C82_ckcd_refuted`, `C82_cold_refuted`, `C83_reversed`, `C83_shapes`, `C83_grid_3d`, `C83_grid_4d`, `C83_missing_3d`, `C83_missing_4d`, `C83_log_decompose`, `C83_actual_levels`, `C83_outflow`, `C83_profile_missing_refuted`, `C91_winds`, `C101_points`, `C101_inputs`, `C101_error`, `C102_zeros`, `C102_rule`, `C102_small`, `C102_exists`, `C103_instance`, `C103_rejected`, `C103_series`, `C103_point_value`, `C105_determined_refuted`, `C106_round_trip`, `C106_identity`, `C107_spectogrd`, `C107_latitudes`, `C107_no_latitude`, `C108_smooth`, `C108_filter`, `C109_values`, `C109_exact`, `C110_safe_refuted`, `C110_determined_refuted`, `C110_factors_read_outside`, `C111_grid_point`, `C113_rule_exists`, `C114_winds`
