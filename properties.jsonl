{"id": "C01", "title": "Mann-Kendall S counts every pair exactly once", "statement": "For every clean series, the S statistic used by the Mann-Kendall test equals the number of increasing pairs (i<j, y_i<y_j) minus the number of decreasing pairs, whichever compiled kernel computes it (the pair-order kernel or the fused lag-band kernel), and |S| <= n(n-1)/2, so tau = S/(n(n-1)/2) lies in [-1,1].", "quantifier": "every finite series of any length n", "why_tests_cant": "the claim ranges over all lengths and all orderings/ties of the data; a test fixes finitely many series", "anchors": ["src/skyborn/calc/mann_kendall/fortran/mann_kendall_core.f90:compute_s_value", "src/skyborn/calc/mann_kendall/fortran/mann_kendall_core.f90:compute_s_value_and_sen_slope_with_inv_lag"]}
{"id": "C02", "title": "Trend statistic respects the symmetries of the data", "statement": "Reversing time or negating the data negates S; applying any strictly increasing transformation to the data leaves S unchanged; adding a constant leaves S unchanged; the reported trend direction therefore depends only on the order of the data.", "quantifier": "every series, every strictly increasing transformation", "why_tests_cant": "infinitely many transformations and series", "anchors": ["src/skyborn/calc/mann_kendall/fortran/mann_kendall_core.f90:compute_s_value", "src/skyborn/calc/mann_kendall/core.py:mann_kendall_test"]}
{"id": "C03", "title": "In-place sort returns a sorted permutation", "statement": "The in-place sorting kernel used for tie counting terminates and returns, for every buffer, a permutation of that buffer in ascending order, never reading or writing outside the active window during partitioning.", "quantifier": "every buffer of every length (above and below the insertion threshold)", "why_tests_cant": "a hybrid quicksort/insertion sort has data-dependent recursion; termination and scan bounds depend on the pivot for each input", "anchors": ["src/skyborn/calc/mann_kendall/fortran/mann_kendall_core.f90:quicksort_real", "src/skyborn/calc/mann_kendall/fortran/mann_kendall_core.f90:insertion_sort_real", "src/skyborn/calc/mann_kendall/fortran/mann_kendall_core.f90:sort_real_inplace"]}
{"id": "C04", "title": "Quickselect returns the exact order statistic", "statement": "After the selection kernel runs on a buffer with a valid k, the buffer is a permutation of the input, the entry at position k is the k-th smallest value, everything before it is <= it and everything after it is >= it.", "quantifier": "every buffer and every k in range", "why_tests_cant": "data-dependent partition loop; all lengths, all tie patterns, all k", "anchors": ["src/skyborn/calc/mann_kendall/fortran/mann_kendall_core.f90:select_kth_real", "src/skyborn/calc/mann_kendall/fortran/mann_kendall_core.f90:median_of_three"]}
{"id": "C05", "title": "Sen slope is the exact median of all pairwise slopes", "statement": "For every clean series with at least two values the reported Theil-Sen slope equals the median of (y_j-y_i)/(j-i) over all pairs i<j (mean of the two middle ones for an even count).", "quantifier": "every series of length n >= 2", "why_tests_cant": "ranges over all n; involves a triangular packing of n(n-1)/2 slopes, a quickselect and a max scan that only interact for particular n and tie patterns", "anchors": ["src/skyborn/calc/mann_kendall/fortran/mann_kendall_core.f90:compute_sen_slope_with_inv_lag", "src/skyborn/calc/mann_kendall/fortran/mann_kendall_core.f90:compute_sen_slope", "src/skyborn/calc/mann_kendall/fortran/mann_kendall_core.f90:compute_s_value_and_sen_slope_with_inv_lag"]}
{"id": "C06", "title": "Sen slope is equivariant", "statement": "Adding a linear trend a+b*t to the data adds exactly b to the reported Sen slope; multiplying the data by c multiplies it by c; reversing time negates it.", "quantifier": "every series, every a, b, c", "why_tests_cant": "universally quantified over transformations", "anchors": ["src/skyborn/calc/mann_kendall/fortran/mann_kendall_core.f90:compute_sen_slope_with_inv_lag"]}
{"id": "C07", "title": "Tie-corrected variance is the textbook variance and never negative", "statement": "The variance of S reported for a clean series equals (n(n-1)(2n+5) - sum over groups of tied values of t(t-1)(2t+5))/18, is independent of the order of the data, is >= 0, and is 0 exactly when all values are equal (n>=2).", "quantifier": "every series", "why_tests_cant": "every tie pattern of every length", "anchors": ["src/skyborn/calc/mann_kendall/fortran/mann_kendall_core.f90:compute_base_variance", "src/skyborn/calc/mann_kendall/fortran/mann_kendall_core.f90:compute_base_variance_from_sorted"]}
{"id": "C08", "title": "Grouped Sen slope uses exactly the within-group pairs", "statement": "The grouped (seasonal/multivariate) Sen slope of a flat interleaved series equals the median of all within-group pairwise slopes, and the kernel's preallocated slope count equals the number of slopes it writes, for every period, including periods that do not divide the length.", "quantifier": "every n, every period >= 1, every series", "why_tests_cant": "buffer-size arithmetic must agree with nested loops for all (n, period)", "anchors": ["src/skyborn/calc/mann_kendall/fortran/mann_kendall_core.f90:compute_grouped_slope_count", "src/skyborn/calc/mann_kendall/fortran/mann_kendall_core.f90:compute_grouped_sen_slope_with_inv_lag"]}
{"id": "C09", "title": "Average ranks are the tie-averaged ranks", "statement": "The rank kernel assigns to every observation (number of smaller values) + (number of equal values + 1)/2, independent of the sort's internal tie order, and the ranks sum to n(n+1)/2.", "quantifier": "every vector", "why_tests_cant": "depends on an unstable index sort; must hold for every tie pattern", "anchors": ["src/skyborn/calc/mann_kendall/fortran/mann_kendall_core.f90:compute_average_ranks", "src/skyborn/calc/mann_kendall/fortran/mann_kendall_core.f90:compute_group_rank_vector"]}
{"id": "C10", "title": "32-bit index arithmetic of the trend kernels does not overflow", "statement": "Every integer product the trend kernels form (slope-buffer offsets, Hamed-Rao lag weights) stays within the default 32-bit integer range, so that results do not depend on machine word size.", "quantifier": "every series length accepted by the API", "why_tests_cant": "overflow needs series longer than any unit test uses; the exact thresholds are universally quantified facts", "anchors": ["src/skyborn/calc/mann_kendall/fortran/mann_kendall_core.f90:compute_hamed_rao_variance_with_slope_lag", "src/skyborn/calc/mann_kendall/fortran/mann_kendall_core.f90:compute_sen_slope_with_inv_lag"]}
{"id": "C11", "title": "Modified (autocorrelation-corrected) variance is a usable variance", "statement": "With all lags included, the Yue-Wang corrected variance is never negative; the correction leaves the variance unchanged when the autocorrelations used are zero. (Documented use: var_s feeds a square root.)", "quantifier": "every detrended series, every lag limit", "why_tests_cant": "sign of a quadratic form over all series", "anchors": ["src/skyborn/calc/mann_kendall/fortran/mann_kendall_core.f90:compute_modified_variance", "src/skyborn/calc/mann_kendall/fortran/mann_kendall_core.f90:compute_hamed_rao_variance_with_slope_lag"]}
{"id": "C12", "title": "Significance decision is consistent", "statement": "Given S and a positive variance, z is finite, |z|*sqrt(var) = |S|-1 for S != 0, z never has the sign opposite to S, is zero exactly when |S| <= 1, is odd and monotone in S, and the scalar and vectorised rules agree; the variance is positive whenever S != 0, so z of the test is never NaN or infinite. h is True exactly when the reported two-sided p-value is below alpha, p lies in (0,1], tau in [-1,1]. Reversing the series negates trend, z, tau and keeps p, h, std_error; a positive rescaling changes only trend and std_error, by the scale.", "quantifier": "every S, every variance, every significance level in (0,2), every series with any missing-data pattern", "why_tests_cant": "decision table over a continuous domain and all series", "anchors": ["src/skyborn/calc/mann_kendall/core.py:mann_kendall_test", "src/skyborn/calc/mann_kendall/core.py:_vectorized_mk_test"]}
{"id": "C13", "title": "Gridded test equals the scalar test at every point, for every chunk size", "statement": "Running the gridded Mann-Kendall driver with any chunk_size >= 1 (or the default one), any time axis and any rank visits every grid point exactly once and stores at each point what the per-series test gives for that point; points with fewer than 3 valid values are NaN / False; the scratch buffers shared between series never influence a result.", "quantifier": "every array rank and shape, every time axis, every chunk size >= 1, every missing-data pattern, both slope methods", "why_tests_cant": "all (n_points, chunk_size) pairs, including non-dividing ones, and all stale buffer contents", "anchors": ["src/skyborn/calc/mann_kendall/core.py:mann_kendall_multidim", "src/skyborn/calc/mann_kendall/core.py:_vectorized_mk_test", "src/skyborn/calc/mann_kendall/fortran/mann_kendall_core.f90:mk_score_var_sen_batch"]}
{"id": "C14", "title": "Filling never changes observed values", "statement": "fill() returns every unmasked input value unchanged, for every mask, boundary type, initialisation mode, relaxation parameter, tolerance and iteration limit, at every intermediate iteration.", "quantifier": "all grids, masks, options, iteration counts", "why_tests_cant": "must hold at every iteration of an unbounded iterative solver", "anchors": ["src/skyborn/gridfill/_gridfill.pyx:poisson_fill", "src/skyborn/gridfill/gridfill.py:fill"]}
{"id": "C15", "title": "Stencil never leaves the grid and wraps correctly", "statement": "The neighbour indices used by the solver are always inside the grid; in the cyclic case the x-neighbours are the cyclic predecessor/successor; at non-cyclic edges and at the first/last latitude they are the mirrored interior neighbour.", "quantifier": "all grid sizes >= 2 and all positions", "why_tests_cant": "all sizes; an out-of-bounds read in unchecked Cython is silent", "anchors": ["src/skyborn/gridfill/_gridfill.pyx:latitude_indices", "src/skyborn/gridfill/_gridfill.pyx:longitude_indices"]}
{"id": "C16", "title": "Maximum principle", "statement": "If 0 <= relax <= 1, after any number of iterations every filled value lies between the minimum and the maximum of the observed values and the initial guesses.", "quantifier": "all grids, masks, iteration counts, relax in [0,1]", "why_tests_cant": "invariant of an unbounded iteration", "anchors": ["src/skyborn/gridfill/_gridfill.pyx:poisson_fill"]}
{"id": "C17", "title": "Convergence flag is truthful", "statement": "converged is True for a grid iff the maximum absolute residual of its last sweep was <= eps; the number of iterations never exceeds itermax; if it is reported converged before itermax the iteration stopped because the residual was small.", "quantifier": "all grids and parameters (including itermax = 0)", "why_tests_cant": "ranges over all iteration histories", "anchors": ["src/skyborn/gridfill/_gridfill.pyx:poisson_fill", "src/skyborn/gridfill/gridfill.py:fill"]}
{"id": "C18", "title": "A solved grid is a fixed point (discrete Laplace equation)", "statement": "A sweep's residual is zero at every missing point iff every missing point equals the average of its four stencil neighbours, and in that case any number of further sweeps leaves the grid unchanged; a constant field with missing cells initialised to the constant is filled with exactly that constant.", "quantifier": "all grids, masks, relax", "why_tests_cant": "equality over all sweeps", "anchors": ["src/skyborn/gridfill/_gridfill.pyx:poisson_fill"]}
{"id": "C19", "title": "Slices are filled independently", "statement": "Filling a stack of grids gives for each slice the same values, iteration count and residual as filling that slice alone.", "quantifier": "all stacks", "why_tests_cant": "all stack sizes and contents", "anchors": ["src/skyborn/gridfill/_gridfill.pyx:poisson_fill_grids"]}
{"id": "C20", "title": "Dimension shuffling round-trips", "statement": "For any number of dimensions and any distinct positions of the x and y dimensions, preparing an array (x/y dimensions moved to the front, others flattened) and recovering it gives back exactly the original array: every element at its original index and the original shape. The same holds for the windspharm prep_data/recover_data pair with distinct dimension labels.", "quantifier": "all ranks, all shapes, all xdim != ydim", "why_tests_cant": "combinatorially many axis orders; the recovery uses a stateful rollaxis loop", "anchors": ["src/skyborn/gridfill/gridfill.py:_prep_data", "src/skyborn/gridfill/gridfill.py:_recover_data", "src/skyborn/windspharm/tools.py:prep_data", "src/skyborn/windspharm/tools.py:recover_data"]}
{"id": "C21", "title": "Zonal initial guesses lie in the row's range", "statement": "With zonal-mean or zonal-linear initialisation, every missing cell of a row having at least one observed value starts from a value between that row's smallest and largest observed value (never from the internal 1e20 fill marker).", "quantifier": "all rows, masks, cyclic and non-cyclic", "why_tests_cant": "all gap layouts of all row lengths", "anchors": ["src/skyborn/gridfill/_gridfill.pyx:initialize_missing"]}
{"id": "C22", "title": "Pressure-level interpolation brackets correctly", "statement": "interp_pressure_1d on strictly monotonic levels returns the input value at every exact source level, a value between the two neighbouring values for targets between source levels, and missing outside the source range when extrapolation is off.", "quantifier": "all profiles, all targets", "why_tests_cant": "binary search over all sizes and positions", "anchors": ["src/skyborn/interp/fortran/int2p_kernels.f90:dinterp_pressure_1d_impl", "src/skyborn/interp/interpolation.py:interp_pressure_1d"]}
{"id": "C23", "title": "Pressure-level interpolation ignores storage order", "statement": "Reversing the order of the source levels, or of the targets, does not change the interpolated value at any target.", "quantifier": "all profiles and targets", "why_tests_cant": "all orders and sizes", "anchors": ["src/skyborn/interp/fortran/int2p_kernels.f90:dinterp_pressure_1d_impl"]}
{"id": "C24", "title": "Missing source levels act as if absent", "statement": "A source level whose pressure or value is missing has no influence: the result equals interpolating the profile with that level removed.", "quantifier": "all profiles, all positions of missing levels", "why_tests_cant": "all missing-data patterns", "anchors": ["src/skyborn/interp/fortran/int2p_kernels.f90:compact_valid_levels", "src/skyborn/interp/fortran/int2p_kernels.f90:is_increasing"]}
{"id": "C25", "title": "Hybrid-to-pressure: both execution paths agree", "statement": "interp_hybrid_to_pressure gives the same result through the contiguous fast path (binary search) and through the fallback path (monotone walk), for every column and every list of target levels.", "quantifier": "all columns, all target lists (sorted either way or unsorted)", "why_tests_cant": "needs all orders of targets and ties with source levels", "anchors": ["src/skyborn/interp/fortran/vinth2p_kernels.f90:interpolate_column_nodes", "src/skyborn/interp/fortran/vinth2p_kernels.f90:interpolate_flat_column_nodes", "src/skyborn/interp/fortran/vinth2p_kernels.f90:locate_bracketing_level_ordered"]}
{"id": "C26", "title": "Hybrid-to-pressure never invents values without extrapolation", "statement": "With extrapolate=False, targets outside the column's pressure range are missing, and inside the range the result is between the two bracketing values and exact at source levels.", "quantifier": "all columns and targets", "why_tests_cant": "all positions", "anchors": ["src/skyborn/interp/fortran/vinth2p_kernels.f90:interpolate_column_nodes"]}
{"id": "C27", "title": "Hybrid layer thicknesses telescope", "statement": "For monotonic hybrid interface pressures the layer thicknesses are non-negative and sum to |p_bottom - p_top| for every column.", "quantifier": "all coefficient sets and surface pressures", "why_tests_cant": "sum over unbounded number of layers", "anchors": ["src/skyborn/interp/fortran/vinth2p_kernels.f90:compute_delta_pressure_columns"]}
{"id": "C28", "title": "Isentropic interpolation sorts, brackets and stays in range", "statement": "interp_to_isentropic on any column uses only valid levels, is independent of the order in which levels are stored (distinct theta), returns a value inside the range of the column's valid data, the exact datum at an exact theta level, and missing (or the edge value when extrapolating) outside.", "quantifier": "all columns", "why_tests_cant": "insertion sort + linear scan for all sizes and missing patterns", "anchors": ["src/skyborn/interp/fortran/isentropic_kernels.f90:interp_sorted_profile", "src/skyborn/interp/fortran/isentropic_kernels.f90:sort_pairs"]}
{"id": "C29", "title": "Flat-buffer addressing is a bijection", "statement": "The C-order flat-buffer kernels address, over all (outer, level, inner) triples, each buffer element exactly once and never outside the buffer.", "quantifier": "all (nouter, nlev, ninner)", "why_tests_cant": "all shapes", "anchors": ["src/skyborn/interp/fortran/isentropic_kernels.f90", "src/skyborn/interp/fortran/vinth2p_kernels.f90:build_flat_level_offsets"]}
{"id": "C30", "title": "Gap filling along a line", "statement": "The linear gap filler leaves valid values unchanged, fills a gap of at most the allowed length with the straight line between its two valid neighbours (so within their range), leaves longer gaps missing, and the specialised short-gap routine used by rcm2rgrid equals the general routine with its documented parameters.", "quantifier": "all series, gap layouts, limits", "why_tests_cant": "all gap layouts", "anchors": ["src/skyborn/interp/fortran/linmsg_dp.f90:dlinmsg", "src/skyborn/interp/fortran/linmsg_dp.f90:dlinmsg_interior_short_gaps"]}
{"id": "C31", "title": "One-dimensional linear interpolation sweep is pointwise", "statement": "The merge-style sweep that interpolates a whole list of targets in one pass gives at each target the pointwise linear interpolant of the bracketing source interval, or missing outside the range.", "quantifier": "all strictly increasing source and target lists", "why_tests_cant": "loop-carried cursor; all interleavings of the two lists", "anchors": ["src/skyborn/interp/fortran/linint2.f90:dlin2int1"]}
{"id": "C32", "title": "Grid to triples keeps exactly the valid cells", "statement": "grid_to_triple returns one (x,y,value) triple for every non-missing cell, in row order, and nothing else; it reports an error iff all cells are missing.", "quantifier": "all grids and missing patterns", "why_tests_cant": "all layouts", "anchors": ["src/skyborn/interp/fortran/grid2triple.f90:grid2triple"]}
{"id": "C33", "title": "Caller's array is unchanged by grid_to_triple / triple_to_grid", "statement": "After grid_to_triple or triple_to_grid returns or raises, the caller's input array holds the same values as before the call.", "quantifier": "all arrays, all missing-value conventions, normal return and every failure point", "why_tests_cant": "crash points and sentinel collisions", "anchors": ["src/skyborn/interp/triple_to_grid.py:_grid_to_triple", "src/skyborn/interp/missing_values.py:py2fort_msg", "src/skyborn/interp/missing_values.py:fort2py_msg"]}
{"id": "C34", "title": "Observations land on the nearest grid point", "statement": "triple_to_grid assigns observations to grid points such that an observation coinciding with a grid node is stored at that node, and (full search) each remaining node receives the value of its nearest observation within the search radius.", "quantifier": "all observation sets and grids", "why_tests_cant": "all geometric configurations", "anchors": ["src/skyborn/interp/fortran/triple2grid.f90:trip2grd2_impl", "src/skyborn/interp/fortran/triple2grid.f90:trip2grd3_impl"]}
{"id": "C35", "title": "Bilinear regridding is exact on bilinear fields and range preserving", "statement": "Bilinear regridding reproduces the source value at coinciding nodes, reproduces a + b*lon + c*lat + d*lon*lat exactly inside the source domain, stays within the range of the source field, clamps outside, and is the identity when source and target grids are equal.", "quantifier": "all grids and fields", "why_tests_cant": "all sizes/positions", "anchors": ["src/skyborn/interp/regrid_module.c:bracket_clamped", "src/skyborn/interp/regrid_module.c:bilinear_regrid_2d_core"]}
{"id": "C36", "title": "Conservative latitude weights are conservative", "statement": "Conservative latitude weights are non-negative, each row sums to 1, and area-weighted totals are conserved: the target-area-weighted sum of the regridded column equals the source-area-weighted sum of the input.", "quantifier": "all strictly increasing latitude grids", "why_tests_cant": "double telescoping sum over all grid pairs", "anchors": ["src/skyborn/interp/regrid_module.c:conservative_latitude_weights", "src/skyborn/interp/regrid_module.c:normalize_weight_rows"]}
{"id": "C37", "title": "Conservative longitude weights are overlap fractions", "statement": "Conservative longitude weights are non-negative, rows sum to 1, and each weight is proportional to the overlap of the two cells; regridding onto the same grid is the identity.", "quantifier": "all strictly increasing longitude grids, global or regional", "why_tests_cant": "all periodic configurations", "anchors": ["src/skyborn/interp/regrid_module.c:conservative_longitude_weights", "src/skyborn/interp/regrid_module.c:align_phase_with"]}
{"id": "C38", "title": "Conservative averages skip missing cells and stay in range", "statement": "Each conservatively regridded value is a convex combination of the non-missing source values with positive weight (so within their range, and equal to the constant for constant fields), and is missing iff no such value exists.", "quantifier": "all fields, masks and non-negative weights", "why_tests_cant": "all masks", "anchors": ["src/skyborn/interp/regrid_module.c:conservative_regrid"]}
{"id": "C39", "title": "Tropopause search returns the first qualifying level", "statement": "The WMO tropopause kernel reports success iff some level satisfies the lapse-rate criterion and the mean lapse rate above it stays below the criterion within the next 2 km, reports the lowest such level, and otherwise returns missing in all outputs.", "quantifier": "all profiles", "why_tests_cant": "two nested data-dependent searches", "anchors": ["src/skyborn/calc/troposphere/fortran/stattrop_dp.f:DSTATTROP", "src/skyborn/calc/troposphere/fortran/tropopause_height.f90:tropopause_grid_3d"]}
{"id": "C40", "title": "Tropopause success flag agrees with the outputs in every unit", "statement": "The success flag is True exactly for columns whose returned pressure is a physical value, in hPa and in Pa alike.", "quantifier": "all columns, both pressure units", "why_tests_cant": "needs columns without tropopause in both units", "anchors": ["src/skyborn/calc/troposphere/fortran/stattrop_dp.f:STATTROPX", "src/skyborn/calc/troposphere/fortran/tropopause_height.f90"]}
{"id": "C41", "title": "Axis reordering around compiled kernels is undone exactly", "statement": "For every rank and every position of the level/lat/lon axes, transposing by an order and then by its argsort restores every element to its original index.", "quantifier": "all permutations of all ranks", "why_tests_cant": "n! permutations for every n", "anchors": ["src/skyborn/calc/troposphere/core.py:_order_dims_for_fortran", "src/skyborn/calc/troposphere/core.py:_restore_dims_from_fortran"]}
{"id": "C42", "title": "Geostrophic wind does not depend on latitude storage order", "statement": "Flipping the latitude axis of the input (data and coordinate together) flips the output and changes nothing else.", "quantifier": "all fields and latitude lists", "why_tests_cant": "all sizes", "anchors": ["src/skyborn/calc/geostrophic/core.py:geostrophic_wind", "src/skyborn/calc/geostrophic/fortran/z2geouv.f90:z2geouv"]}
{"id": "C43", "title": "Geostrophic missing-value rule", "statement": "ug is missing at a point iff a neighbour used by its stencil is missing or the latitude is the equator/pole; likewise vg; no other point is affected by a missing value; adding a constant to z changes nothing.", "quantifier": "all fields and masks", "why_tests_cant": "all masks", "anchors": ["src/skyborn/calc/geostrophic/fortran/z2geouv.f90:z2guv"]}
{"id": "C44", "title": "Latitude ordering helpers", "statement": "order_latdim returns latitudes from north to south with data reordered alike, is idempotent, leaves already ordered input unchanged, and reverse_latdim is an involution.", "quantifier": "all arrays and latitude positions", "why_tests_cant": "all ranks and axes", "anchors": ["src/skyborn/windspharm/tools.py:order_latdim", "src/skyborn/windspharm/tools.py:reverse_latdim"]}
{"id": "C45", "title": "Downdraft CAPE is NaN or non-negative and ignores level order", "statement": "DCAPE of a profile is NaN or >= 0, NaN when fewer than four levels are valid, unchanged when the profile is stored upside down, and unchanged when invalid levels are deleted.", "quantifier": "all profiles", "why_tests_cant": "all orders / missing patterns", "anchors": ["src/skyborn/calc/dcape/fortran/dcape.f90"]}
{"id": "C46", "title": "Spatial correlation lies in [-1,1] and uses complete pairs", "statement": "The correlation of every grid point with the index is in [-1,1] (compared through r^2*var*var = cov^2), is invariant under positive affine changes of either variable, and with missing data uses exactly the time steps where both are present.", "quantifier": "all series", "why_tests_cant": "Cauchy-Schwarz over all lengths", "anchors": ["src/skyborn/calc/calculations.py:spatial_correlation"]}
{"id": "C47", "title": "Regression returns the least-squares slope", "statement": "The gridded linear regression slope and intercept minimise the sum of squared residuals at every grid point, and the input array is left unchanged whatever happens.", "quantifier": "all data, including failing calls", "why_tests_cant": "optimality over all competing lines; exception paths", "anchors": ["src/skyborn/calc/calculations.py:linear_regression"]}
{"id": "C48", "title": "Longitude conversion", "statement": "convert_longitude_range maps every longitude to an equivalent one (mod 360) in the documented range, is idempotent, and the two directions are mutually inverse.", "quantifier": "all longitudes", "why_tests_cant": "all reals", "anchors": ["src/skyborn/calc/calculations.py:convert_longitude_range"]}
{"id": "C49", "title": "Finite-difference gradients are exact on linear fields", "statement": "calculate_gradient returns the exact slope for linear data on any strictly monotonic coordinate, uniform or not, at interior and boundary points, is linear in the field, and kills constants.", "quantifier": "all fields and coordinates", "why_tests_cant": "all sizes and spacings", "anchors": ["src/skyborn/calc/gradients.py:calculate_gradient"]}
{"id": "C50", "title": "Lazy package attributes are history independent", "statement": "Accessing any exported name in any order and any number of times yields the same object each time, unknown names always raise AttributeError, and accesses never change what other names resolve to.", "quantifier": "all access histories", "why_tests_cant": "all histories", "anchors": ["src/skyborn/__init__.py:__getattr__", "src/skyborn/calc/__init__.py:__getattr__"]}
{"id": "C51", "title": "Information flow is normalised", "statement": "The normalised Liang-Kleeman information flow components satisfy |tau|<=1 and their absolute contributions sum to one; the flow is invariant under affine rescaling of either series.", "quantifier": "all series", "why_tests_cant": "all reals", "anchors": ["src/skyborn/causality.py:liang"]}
{"id": "C52", "title": "Triangular spectral indexing is a bijection", "statement": "Converting spectral coefficients between the one-dimensional triangular storage and the (m,n) matrix is a bijection for every truncation, so the round trip is the identity on every stored coefficient.", "quantifier": "all truncations", "why_tests_cant": "all ntrunc", "anchors": ["src/skyborn/spharm"]}
{"id": "C53", "title": "Correlated seasonal variance is a genuine variance", "statement": "The correlated (Dietz-Killeen) grouped statistics equal the sum of the groups' S scores and the full symmetric double sum of group covariances; the covariance of a group with itself is its tie-corrected Mann-Kendall variance; the total variance is never negative.", "quantifier": "every flat series and every period between 1 and its length", "why_tests_cant": "non-negativity of the rank-covariance form holds for all tie patterns and numbers of groups, a sum-of-squares argument rather than a finite check", "anchors": ["src/skyborn/calc/mann_kendall/fortran/mann_kendall_core.f90:compute_correlated_grouped_stats", "src/skyborn/calc/mann_kendall/fortran/mann_kendall_core.f90:compute_k_stat"]}
{"id": "C54", "title": "Partial Mann-Kendall statistics", "statement": "Both partial-test kernels (pair order, and lag order fused with the Sen slope) return S_x - rho S_y and (1-rho^2) V with rho the Dietz-Killeen rank covariance over the no-ties variance V; they agree with each other; |rho| <= 1 so the reported variance is never negative; partialling an untied series on itself gives S = 0 and variance 0.", "quantifier": "every pair of series of equal length n >= 3", "why_tests_cant": "the bound |rho| <= 1 is a Cauchy-Schwarz argument over all inputs with arbitrary ties", "anchors": ["src/skyborn/calc/mann_kendall/fortran/mann_kendall_core.f90:compute_partial_stats", "src/skyborn/calc/mann_kendall/fortran/mann_kendall_core.f90:compute_partial_stats_and_sen_slope_with_inv_lag"]}
{"id": "C55", "title": "Geopotential height at hybrid levels increases upward", "statement": "On every column with positive temperature, non-negative humidity and interface pressures decreasing upward, the computed heights strictly increase from the lowest to the highest level and all lie above the surface geopotential height; the flat-buffer kernel returns exactly the column kernel on each column.", "quantifier": "all columns, all level counts, all array shapes", "why_tests_cant": "hydrostatic accumulation over an unbounded number of layers, all buffer shapes", "anchors": ["src/skyborn/interp/fortran/vinth2p_kernels.f90:128-212", "src/skyborn/interp/fortran/vinth2p_kernels.f90:1865-1905"]}
{"id": "C56", "title": "Sigma-to-hybrid interpolation never extrapolates and both paths agree", "statement": "interp_sigma_to_hybrid gives the same array through the contiguous and the fallback path for any data; a target sigma outside the range of the source levels is missing; inside it is exact on a level and in proportion between the two neighbours.", "quantifier": "all columns, all level counts, all array shapes", "why_tests_cant": "all positions of targets, ties and shapes", "anchors": ["src/skyborn/interp/fortran/vinth2p_kernels.f90:978-1073", "src/skyborn/interp/interpolation.py:1778-1963"]}
{"id": "C57", "title": "linint2 work arrays are overrun through the Python interface", "statement": "linint2.pyf allocates the hidden work arrays with len(xi) elements although the routines write up to len(xi)+2: every valid cyclic call of dlinint1 and dlinint2pts, and every valid dlinint1 call that drops missing points when none is missing, writes outside its work array.", "quantifier": "all valid monotone inputs of any length, any contents of the work arrays", "why_tests_cant": "an out-of-bounds write into a neighbouring heap block usually leaves the result intact, so value comparisons pass", "anchors": ["src/skyborn/interp/fortran/linint2.pyf:7-100", "src/skyborn/interp/fortran/linint2.f90:60-107", "src/skyborn/interp/fortran/linint2.f90:452-498"]}
{"id": "C58", "title": "linint2 drivers interpolate rows, then columns, from exactly the intended points", "statement": "With work arrays of nxi+2 elements, dlinint1 gives at each target the linear interpolant of the row's source points: all points or only those present, extended for cyclic data by the last point before and the first after (on a uniform ring exactly one turn away, however many end points are missing); inputs that are not strictly monotone in the same direction give missing and an error. dlinint2 interpolates every row and then every column when both axes run the same way and at least two points remain. dlinint2pts gives the corner value, the bilinear value, the distance-weighted mean of the present corners, or missing outside the half-open grid. No value leaves the range of the present data. Outside these conditions the code is wrong: axes running in opposite directions give missing inside the grid; dropping missing points with fewer than two left reads stale work data; one target with a descending source is rejected.", "quantifier": "all axes, targets, fields, missing patterns and workspace contents", "why_tests_cant": "stale work-array reads and end wrapping depend on every missing pattern and call history", "anchors": ["src/skyborn/interp/fortran/linint2.f90:34-613"]}
{"id": "C59", "title": "triple_to_grid returns the grid in (y, x) layout", "statement": "Element [i,j] of the array triple_to_grid returns is the value computed for grid node (x_out[j], y_out[i]), so that triples taken from a grid by grid_to_triple and put back on the same axes reproduce the grid.", "quantifier": "all grids and axes", "why_tests_cant": "the existing tests compare sorted values only, and every shape and position matters", "anchors": ["src/skyborn/interp/triple_to_grid.py:_triple_to_grid", "src/skyborn/interp/triple2grid_module.c:py_triple2grid1"]}
{"id": "C60", "title": "Native nearest-neighbour search returns the first best source point, and the gather is bounds checked", "statement": "The native nearest-neighbour index search returns the first source point (in C order) with the greatest score, so the tie tolerance never changes the choice, and applying an index array either gathers exactly the indexed values or raises when the size is wrong or an index is out of range.", "quantifier": "all grid sizes, scores above -2, planes and index arrays", "why_tests_cant": "ties and near ties at every position, and every index value including negative ones", "anchors": ["src/skyborn/interp/regrid_module.c:nearest_neighbor_indices", "src/skyborn/interp/regrid_module.c:nearest_regrid_apply"]}
{"id": "C61", "title": "Standard-atmosphere height is a decreasing function of pressure", "statement": "For every pressure accepted by DSTDATMP the search of STDP2Z picks a layer containing it, and the height strictly decreases as pressure increases.", "quantifier": "all pressures in (0, 1013.25] hPa", "why_tests_cant": "all reals, all layers", "anchors": ["src/skyborn/calc/troposphere/fortran/stndAtmUS76_dp.f:STDP2Z"]}
{"id": "C62", "title": "Curvilinear remapping kernels never leave their arrays", "statement": "For every grid size, coordinate array and target list, drcm2rgrid, drgrid2rcm and drcm2points either report ier = 1 (exactly when a grid is too small) or finish with every read inside its array, every search loop terminating, and an output of the requested shape.", "quantifier": "all grid sizes (including 0, 1 and 2), all coordinates, fields, targets, ncrit, opt and kval", "why_tests_cant": "search windows depend on the coordinates; all shapes and all positions of the anchors", "anchors": ["src/skyborn/interp/fortran/rcm2rgrid.f90:drcm2rgrid_impl", "src/skyborn/interp/fortran/rcm2rgrid.f90:drgrid2rcm_impl", "src/skyborn/interp/fortran/rcm2points.f90:drcm2points_impl"]}
{"id": "C63", "title": "A target that is a source node receives that node's value", "statement": "When a target point coincides with a source node whose value is present, the remapping kernels return that value unchanged.", "quantifier": "all grids, all fields, all target lists", "why_tests_cant": "exact hits are found by window searches whose position depends on all coordinates", "anchors": ["src/skyborn/interp/fortran/rcm2rgrid.f90:find_exact_curv_local", "src/skyborn/interp/fortran/rcm2rgrid.f90:find_exact_regular_local", "src/skyborn/interp/fortran/rcm2points.f90:drcm2points_impl"]}
{"id": "C64", "title": "The monotonic-grid fast path changes no result", "statement": "The narrow window search seeded by bracketing (or by the batch cursor walk) finds the same exact hit and the same cell as the scan of the whole grid, so results do not depend on whether the fast path is taken.", "quantifier": "all grid sizes and coordinates, all targets", "why_tests_cant": "equality of two searches on all inputs", "anchors": ["src/skyborn/interp/fortran/rcm2rgrid.f90:build_stride_candidates_increasing", "src/skyborn/interp/fortran/rcm2rgrid.f90:drcm2rgrid_impl", "src/skyborn/interp/fortran/rcm2points.f90:drcm2points_impl"]}
{"id": "C65", "title": "Remapped values are averages of present source values", "statement": "Every value produced by the remapping kernels (including the row fill) is the missing value or lies between the smallest and largest present source value, and a cell with fewer than ncrit present corners gives no value.", "quantifier": "all grids, fields, masks, ncrit", "why_tests_cant": "all masks and all weights", "anchors": ["src/skyborn/interp/fortran/rcm2rgrid.f90:interpolate_curv_cell", "src/skyborn/interp/fortran/rcm2rgrid.f90:interpolate_regular_cell", "src/skyborn/interp/fortran/rcm2rgrid.f90:fill_missing_rows", "src/skyborn/interp/fortran/rcm2points.f90:drcm2points_impl"]}
{"id": "C66", "title": "rgrid2rcm reproduces bilinear fields on the whole source rectangle", "statement": "On a strictly increasing source grid without missing data, rgrid2rcm gives, at every target inside the source rectangle away from the nodes, the bilinear interpolant of the enclosing cell, hence reproduces every field a + bx + cy + dxy exactly.", "quantifier": "all axes, all targets in the closed source rectangle, all coefficients", "why_tests_cant": "all positions including the closing edges", "anchors": ["src/skyborn/interp/fortran/rcm2rgrid.f90:find_regular_cell_full", "src/skyborn/interp/fortran/rcm2rgrid.f90:interpolate_regular_cell"]}
{"id": "C67", "title": "No extrapolation beyond the source coordinates", "statement": "Targets outside the range of the source coordinates stay missing, and rcm2points rejects latitudes that are not monotonically increasing and only uses source points within its radius.", "quantifier": "all grids and targets", "why_tests_cant": "every position outside the source domain", "anchors": ["src/skyborn/interp/fortran/rcm2rgrid.f90:drcm2rgrid_impl", "src/skyborn/interp/fortran/rcm2points.f90:drcm2points_impl", "src/skyborn/interp/fortran/rcm_geodesy.f90:dgcdist_core"]}
{"id": "C68", "title": "Remapping wrappers leave the caller's field unchanged", "statement": "rcm2rgrid, rgrid2rcm and rcm2points return with the caller's data array exactly as it was, and missing values of the result are marked with the caller's missing value.", "quantifier": "all arrays, all missing-value conventions", "why_tests_cant": "in-place rewriting of a transposed view for every mask", "anchors": ["src/skyborn/interp/rcm2rgrid.py:_rcm2rgrid", "src/skyborn/interp/rcm2rgrid.py:_rgrid2rcm", "src/skyborn/interp/rcm2points.py:_rcm2points"]}
{"id": "C69", "title": "The growth-rate kernels assemble the discretised stability operator", "statement": "For every profile of at least three points the barotropic and baroclinic kernels read no array out of bounds, and at every wavenumber k the assembled matrices satisfy (A x)_n = k (u_n (L x)_n + (beta_n - (L u)_n) x_n) - k^3 u_n x_n and (B x)_n = (L x)_n - k^2 x_n for every vector x, where L is the three-point second-difference operator of the grid with its boundary condition.", "quantifier": "all profiles, grids, wavenumbers and vectors", "why_tests_cant": "boundary rows and off-diagonals for every size and every non-uniform spacing", "anchors": ["src/skyborn/calc/growth_rate/fortran/growth_rate_kernels.f90:dbarot_growth_rate_1d", "src/skyborn/calc/growth_rate/fortran/growth_rate_kernels.f90:dbaroc_growth_rate_1d"]}
{"id": "C70", "title": "Stability criteria hold for the assembled problem", "statement": "An eigenvalue with nonzero imaginary part can occur only if the potential-vorticity gradient beta - L u changes sign and correlates with the flow (Rayleigh, Fjortoft); the imaginary part is at most half the largest scaled shear; hence with a correct eigenvalue solver the barotropic kernel returns exactly zero for such stable profiles and never more than the shear bound.", "quantifier": "all profiles, wavenumbers and eigenpairs", "why_tests_cant": "absence of growing modes for every stable profile", "anchors": ["src/skyborn/calc/growth_rate/fortran/growth_rate_kernels.f90:dbarot_growth_rate_1d", "src/skyborn/calc/growth_rate/fortran/growth_rate_kernels.f90:dbaroc_growth_rate_1d", "src/skyborn/calc/growth_rate/fortran/growth_rate_kernels.f90:generalized_eig_max_imag"]}
{"id": "C71", "title": "Growth rates do not depend on the frame of reference or the hemisphere", "statement": "Adding a constant to the wind shifts every eigenvalue by k times the constant and leaves growth rates unchanged; mirroring the latitudes leaves the spectrum unchanged; eigenvalues come in conjugate pairs.", "quantifier": "all profiles, constants and wavenumbers", "why_tests_cant": "symmetry of the spectrum for all profiles", "anchors": ["src/skyborn/calc/growth_rate/fortran/growth_rate_kernels.f90:dbarot_growth_rate_1d", "src/skyborn/calc/growth_rate/fortran/growth_rate_kernels.f90:dbaroc_growth_rate_1d"]}
{"id": "C72", "title": "Reduction of the growth-rate spectrum", "statement": "The barotropic reduction is the largest valid sample and fails with 200 exactly when there is none; the running mean replaces each sample by the mean of the valid samples of its clipped window; the baroclinic reduction is the largest smoothed sample up to the last decrease, fails with 300 exactly when the smoothed spectrum never decreases, and never fails with 301; a profile without growing modes gives NaN, as documented for unusable profiles.", "quantifier": "all spectra, all windows", "why_tests_cant": "every placement of missing samples and turning points", "anchors": ["src/skyborn/calc/growth_rate/fortran/growth_rate_kernels.f90:finalize_barot_growth", "src/skyborn/calc/growth_rate/fortran/growth_rate_kernels.f90:apply_centered_running_mean", "src/skyborn/calc/growth_rate/fortran/growth_rate_kernels.f90:finalize_baroc_growth", "src/skyborn/calc/growth_rate/core.py:baroc_growth_rate"]}
{"id": "C73", "title": "Interpolation to the solver grid never extrapolates", "statement": "interp_pressure_profile_no_extrap returns its error codes exactly in the documented situations and otherwise the value of the piecewise-linear interpolant (in pressure or log pressure) at every target, does not depend on the storage order of the source, stays within the range of the source values, and agrees with interp_pressure_1d without extrapolation.", "quantifier": "all profiles, targets and orders", "why_tests_cant": "the moving bracket for every target list", "anchors": ["src/skyborn/calc/growth_rate/fortran/growth_rate_kernels.f90:interp_pressure_profile_no_extrap", "src/skyborn/interp/interpolation.py:interp_pressure_1d"]}
{"id": "C74", "title": "Batched and single-profile growth rates agree", "statement": "baroc_growth_rate of a stack of profiles returns for each profile what the call on that profile alone returns, and one bad profile does not prevent the others from being returned.", "quantifier": "all stacks of profiles", "why_tests_cant": "every mixture of missing, bad and good profiles and of pressure units", "anchors": ["src/skyborn/calc/growth_rate/core.py:baroc_growth_rate", "src/skyborn/calc/growth_rate/fortran/growth_rate_kernels.f90:dbaroc_growth_rate_profiles"]}
{"id": "C75", "title": "Packed reduced-Gaussian layout, checks and tables", "statement": "The packed spectral index enumerates orders and degrees without gaps and the row offsets tile the packed grid; every transform accepts exactly the consistent arguments; the Legendre setup succeeds for every truncation the Python validation accepts, and its tables have the hemispheric parity that the mirrored code paths assume.", "quantifier": "all grids (row-length lists), truncations and table values", "why_tests_cant": "unbounded row lists and truncations; tests replace the setup for the smallest truncations by a stub", "anchors": ["src/skyborn/spharm/src/reduced_gaussian_scalar.f90:reduced_gaussian_legendre_basis", "src/skyborn/spharm/src/reduced_gaussian_scalar.f90:reduced_gaussian_legendre_derivative_from_basis", "src/skyborn/spharm/reduced_gaussian.py:_validate_ntrunc"]}
{"id": "C76", "title": "Reduced-Gaussian synthesis evaluates the spectral series", "statement": "spectogrd puts at point i of row j the value of the spectral series there, on the mirrored and the general path, whatever the work arrays and the output held before; the paired routine returns the two single results.", "quantifier": "all grids, truncations, spectra, tables and previous array contents", "why_tests_cant": "two code paths over every list of row lengths, with uninitialised work memory", "anchors": ["src/skyborn/spharm/src/reduced_gaussian_scalar.f90:reduced_gaussian_spectogrd", "src/skyborn/spharm/src/reduced_gaussian_scalar.f90:reduced_gaussian_spectogrd_pair"]}
{"id": "C77", "title": "Reduced-Gaussian analysis is the quadrature sum and inverts synthesis", "statement": "grdtospec returns for each order and degree the weighted sum over the rows that resolve the order of the row's Fourier coefficient times the Legendre value; with an orthonormal table and rows longer than twice the truncation it inverts spectogrd; specsmooth multiplies each degree by its factor.", "quantifier": "all grids, truncations, fields, weights and tables", "why_tests_cant": "round trips are only checked on a few grids and to a tolerance", "anchors": ["src/skyborn/spharm/src/reduced_gaussian_scalar.f90:reduced_gaussian_grdtospec", "src/skyborn/spharm/reduced_gaussian.py:specsmooth"]}
{"id": "C78", "title": "Reduced-Gaussian gradients, vorticity and divergence", "statement": "getgrad, getvrtdivspec, getvrtspec and getdivspec compute the spectral derivatives and their quadratures independently of earlier calls; paired and single-component routines agree with the general ones; the divergence of a gradient is the Laplacian, its curl zero, and getvrtdivspec recovers the spectra given to getuv.", "quantifier": "all grids, truncations, fields, tables and cached array contents", "why_tests_cant": "results may depend on arrays kept between calls; identities hold for all spectra", "anchors": ["src/skyborn/spharm/src/reduced_gaussian_scalar.f90:reduced_gaussian_getgrad", "src/skyborn/spharm/src/reduced_gaussian_scalar.f90:reduced_gaussian_getvrtdivspec", "src/skyborn/spharm/src/reduced_gaussian_scalar.f90:reduced_gaussian_getvecspec_component", "src/skyborn/spharm/reduced_gaussian.py:getuv"]}
{"id": "C79", "title": "Reduced-Gaussian caches are transparent and precision follows the inputs", "statement": "The Python table caches and the Fortran FFT and work-array caches never change a result and stay within their limit, for every sequence of requests; precision=\"auto\" returns the highest precision among the inputs.", "quantifier": "all sequences of requests, failures and grids; all operations and input types", "why_tests_cant": "eviction and reuse depend on the whole history of calls", "anchors": ["src/skyborn/spharm/reduced_gaussian.py:_cache_basis_array", "src/skyborn/spharm/reduced_gaussian.py:_public_real_dtype", "src/skyborn/spharm/src/reduced_gaussian_scalar.f90:reduced_gaussian_prepare_fft_cache"]}
{"id": "C80", "title": "Parcel CAPE kernel: outcome, level of neutral buoyancy and outflow", "statement": "cape_from_cached_environment ends within its iteration limits with one of three flags; on success every level's buoyancy is that of a parcel lifted dry-adiabatically below its condensation level and with its reversible entropy (to the stated temperature tolerance) above it, the outflow pressure and temperature lie between the two levels that bracket the highest buoyant level, and the returned CAPE is the non-negative trapezoidal buoyancy integral; levels beyond num_points are never used.", "quantifier": "all parcels, soundings, numbers of levels and buoyancy parameters", "why_tests_cant": "tests try a few tropical soundings; the Newton loop, the early exits and the interpolation depend on every sounding", "anchors": ["src/skyborn/calc/GPI/fortran/tropical_cyclone_potential_intensity.f90:cape_from_cached_environment", "src/skyborn/calc/GPI/fortran/tropical_cyclone_potential_intensity.f90:prepare_cape_environment"]}
{"id": "C81", "title": "Potential-intensity solver: termination, bounds and decomposition", "statement": "calculate_pi_core stops after at most 201 pressure updates; on success the minimum pressure is positive and at most the sea-level pressure, the wind is non-negative and is the stated function of the CAPE difference at the converged pressure, the log decomposition adds up, and only the levels below the one nearest 50 mb matter; when it does not succeed every output is the missing value.", "quantifier": "all soundings, sea-surface states, outflow choices and Ck/Cd values", "why_tests_cant": "convergence of a fixed-point loop whose body contains three nested solves", "anchors": ["src/skyborn/calc/GPI/fortran/tropical_cyclone_potential_intensity.f90:calculate_pi_core"]}
{"id": "C82", "title": "Potential-intensity grid drivers agree point by point with the profile routine", "statement": "Each gridded routine (3-D, 4-D, with and without diagnostics, with and without missing data) stores at every grid point what the profile routine gives for that column, for every execution order of the parallel loop and whatever the output arrays held; columns missing their lowest levels are computed on the remaining levels, and a point with missing input gives missing output; error_flag is 1 exactly when every computed point succeeded; the plain and the missing-data routine agree on complete data.", "quantifier": "all grid shapes, fields, masks and thread schedules", "why_tests_cant": "flag and output combine over all points and orders", "anchors": ["src/skyborn/calc/GPI/fortran/tropical_cyclone_potential_intensity.f90:calculate_pi_gridded_data", "src/skyborn/calc/GPI/fortran/tropical_cyclone_potential_intensity.f90:calculate_pi_gridded_with_missing", "src/skyborn/calc/GPI/fortran/tropical_cyclone_potential_intensity.f90:calculate_pi_4d_diagnostics_with_missing"]}
{"id": "C83", "title": "Potential-intensity Python layer: ordering, dispatch and missing values", "statement": "potential_intensity gives the same result for a column listed from the surface up and from the top down, dispatches to the routine for its dimensions and missing values, rejects every inconsistent shape before the compiled call, treats missing values alike for profiles and grids, and log_decompose_pi reproduces the compiled decomposition.", "quantifier": "all arrays, shapes, orderings, masks and options", "why_tests_cant": "combinations of ordering, shape and mask are unbounded", "anchors": ["src/skyborn/calc/GPI/core.py:_ensure_pressure_ordering", "src/skyborn/calc/GPI/core.py:_validate_input_arrays", "src/skyborn/calc/GPI/core.py:_calc_potential_intensity", "src/skyborn/calc/GPI/core.py:log_decompose_pi"]}
{"id": "C84", "title": "Emergent constraint: the inter-model regression", "statement": "The regression used by the emergent-constraint functions is the least-squares line of the models for which both variables are finite: no other line has a smaller squared misfit, it is unique unless all models share one constraint value, its error is the residual misfit over n-2 degrees of freedom (n for one or two models) and vanishes exactly when the models lie on a line; the predictive deviation is smallest at the models' mean; neither the order of the models nor the units of the variables matter.", "quantifier": "all model lists (finite or not), all grids", "why_tests_cant": "optimality is a statement about all competing lines and all data sets", "anchors": ["src/skyborn/calc/emergent_constraints.py:_fit_linear_relationship", "src/skyborn/calc/emergent_constraints.py:_prediction_std"]}
{"id": "C85", "title": "Emergent constraint: prior and posterior", "statement": "Each column of the prior is the normal density around the regression line with the predictive deviation (one at the nearest target when the models lie on a line); the posterior is the prior weighted with the observed density times the grid spacing; it is non-negative, loses no mass when the models lie on a line, does not depend on the order of the models, follows a change of units, and does not depend on how the constraint grid is listed or spaced.", "quantifier": "all models, grids and observed densities", "why_tests_cant": "the inputs are real functions on arbitrary grids", "anchors": ["src/skyborn/calc/emergent_constraints.py:gaussian_pdf", "src/skyborn/calc/emergent_constraints.py:emergent_constraint_prior", "src/skyborn/calc/emergent_constraints.py:emergent_constraint_posterior"]}
{"id": "C86", "title": "Emergent constraint: spread and mode of the posterior", "statement": "The value returned as mean is the target at the first maximum of the density; the value returned as standard deviation is the distance from it down to the first target at which 0.341 of the mass is collected, and otherwise the root mean square distance from it; it exists for every non-negative density, is at most the range of the targets, scales with the units, and is the standard deviation of the density.", "quantifier": "all densities and target grids", "why_tests_cant": "densities are arbitrary real vectors", "anchors": ["src/skyborn/calc/emergent_constraints.py:_calculate_std_from_pdf", "src/skyborn/calc/emergent_constraints.py:emergent_constraint_posterior"]}
{"id": "C87", "title": "The real-FFT initialisation factors every length and tabulates every rotation", "statement": "For every length n >= 2 and every previous contents of the work array, hrffti terminates (after at most 2n+5 trial divisions), its factors multiply to n, consist of twos and fours (at most one two) followed by odd numbers, and the first n elements of wsave hold, for every factor, the cosine and sine of 2 pi s q / (ip ido) at the position where the pass of that factor reads them; nothing else in wa changes. The factor list fits the declared fac(15).", "quantifier": "for all lengths n, all work array contents", "why_tests_cant": "Each length has its own factorisation and table layout; the capacity claim first fails for n = 3188646, far beyond any test grid.", "anchors": ["src/skyborn/spharm/src/hrfft.f90:hrffti", "src/skyborn/spharm/src/hrfft.f90:hrfti1"]}
{"id": "C88", "title": "The forward real FFT is the discrete Fourier transform for every length", "statement": "For every length n >= 1, every sequence r of that length and every contents of the work arrays, hrfftf with the tables of hrffti succeeds without a write outside the arrays and returns exactly the sum, the cosine sums and minus the sine sums of r in half-complex order; the result does not depend on the work array or on values outside the arrays. This covers every mixture of the radix 2, 3, 4, 5 and general passes.", "quantifier": "for all n, all sequences, all work contents", "why_tests_cant": "Radix mixtures (order of factors, odd and even row lengths, alternation of the two arrays, loop order of the general pass) form an unbounded family; a wrong index in one branch only shows for particular factorisations.", "anchors": ["src/skyborn/spharm/src/hrfft.f90:hrfftf", "src/skyborn/spharm/src/hrfft.f90:hrftf1", "src/skyborn/spharm/src/hrfft.f90:hradfg", "src/skyborn/spharm/src/hrfft.f90:hradf2", "src/skyborn/spharm/src/hrfft.f90:hradf3", "src/skyborn/spharm/src/hrfft.f90:hradf4", "src/skyborn/spharm/src/hrfft.f90:hradf5"]}
{"id": "C89", "title": "The backward real FFT is the Fourier series for every length", "statement": "For every length n >= 1, every packed half-complex sequence r of that length and every contents of the work arrays, hrfftb with the tables of hrffti succeeds without a write outside the arrays and returns at every position the Fourier series of r; the result does not depend on the work array or on values outside the arrays.", "quantifier": "for all n, all sequences, all work contents", "why_tests_cant": "Radix mixtures and the parity of the row length select different branches in every pass; a wrong index in one of them only shows for particular factorisations.", "anchors": ["src/skyborn/spharm/src/hrfft.f90:hrfftb", "src/skyborn/spharm/src/hrfft.f90:hrftb1", "src/skyborn/spharm/src/hrfft.f90:hradbg", "src/skyborn/spharm/src/hrfft.f90:hradb2", "src/skyborn/spharm/src/hrfft.f90:hradb3", "src/skyborn/spharm/src/hrfft.f90:hradb4", "src/skyborn/spharm/src/hrfft.f90:hradb5"]}
{"id": "C90", "title": "Forward and backward real FFT are inverse up to the factor n", "statement": "hrfftb after hrfftf, and hrfftf after hrfftb, with the same table and the work array left by the first call, return every value of the sequence times n, for every length; hence the forward transform is injective on sequences of one length.", "quantifier": "for all n, all sequences, all work contents", "why_tests_cant": "A matching pair of errors in the two directions, or an error in one radix mixture, escapes tests on a few lengths.", "anchors": ["src/skyborn/spharm/src/hrfft.f90:hrfftf", "src/skyborn/spharm/src/hrfft.f90:hrfftb"]}
{"id": "C91", "title": "The reduced-Gaussian transforms hold with the code's own row transforms", "statement": "With hrffti, hrfftf and hrfftb as the row transforms (instead of their defining sums), reduced-grid synthesis gives the series at every point, synthesis followed by analysis returns the spectrum on an orthonormal table, and getuv followed by getvrtdivspec returns vorticity and divergence; on a row of the declared length nothing is padded.", "quantifier": "for all row counts, row lengths, truncations, spectra and table contents meeting the hypotheses of C76-C78", "why_tests_cant": "Every latitude row may have its own length and factorisation.", "anchors": ["src/skyborn/spharm/src/reduced_gaussian_scalar.f90:reduced_gaussian_spectogrd", "src/skyborn/spharm/src/hrfft.f90:hrfftf", "src/skyborn/spharm/src/hrfft.f90:hrfftb"]}
{"id": "C92", "title": "Scalar synthesis on a Gaussian grid gives the truncated series", "statement": "For every grid size, symmetry mode (0, 1, 2), array dimensions that hold the data and stored functions that vanish on the equator row where they are odd, shsgs1 never leaves an array bound and leaves at row i, longitude j the value of 1/2 sum_n a(0,n) P(0,n) + sum over orders m = 1..min(nlon/2+1, nlat)-1 and degrees n >= m of (a cos - b sin) P(m,n), over all functions in mode 0, the odd ones in mode 1 and the even ones in mode 2; the southern rows follow by parity. Elements of the output array outside the grid are unchanged, and the result does not depend on the work array or on what the output held.", "quantifier": "for all nlat, nlon >= 1, all modes, array dimensions, coefficients, tables and work contents", "why_tests_cant": "The loops treat odd and even nlat, odd and even nlon, the truncation nlon = 2l-2 and the three modes in separate code; tests sample a few grids.", "anchors": ["src/skyborn/spharm/src/shsgs.f90:shsgs1", "src/skyborn/spharm/src/shsgs.f90:process_full_sphere_mode", "src/skyborn/spharm/src/shsgs.f90:process_half_sphere_mode"]}
{"id": "C93", "title": "Scalar analysis on a Gaussian grid is the Gaussian quadrature of the row Fourier coefficients", "statement": "For every grid size, mode and dimensions, shags1 never leaves an array bound and stores in a(m+1,n+1), b(m+1,n+1), m < min(nlon/2+1, nlat), m <= n < nlat, the quadrature sum over all nlat rows of weight times P(m,n) times the cosine (sine) coefficient of the row, where in modes 1 and 2 the field is continued to the south as odd or even; coefficients with n < m are 0, and the rest of the arrays keeps its content.", "quantifier": "for all nlat, nlon >= 1, all modes, array dimensions, fields, symmetric weights, tables and work contents", "why_tests_cant": "The even-odd folding of rows is written separately for odd and even nlat and for the half-sphere modes.", "anchors": ["src/skyborn/spharm/src/shags.f90:shags1", "src/skyborn/spharm/src/shags.f90:process_full_sphere_mode", "src/skyborn/spharm/src/shags.f90:process_half_sphere_mode"]}
{"id": "C94", "title": "Analysis of a synthesis returns the coefficients", "statement": "When the stored functions of one order are orthonormal under the quadrature, shags1 applied to the output of shsgs1 returns every cosine coefficient the mode uses and every used sine coefficient of order m >= 1 with 2m /= nlon; the other coefficients come back as 0.", "quantifier": "for all nlat, nlon >= 1, all modes, dimensions, coefficient arrays", "why_tests_cant": "Round-trip tests use a few grids and fields; the edge orders (0, and nlon/2 of even rows) are lost silently.", "anchors": ["src/skyborn/spharm/src/shsgs.f90:shsgs1", "src/skyborn/spharm/src/shags.f90:shags1"]}
{"id": "C95", "title": "Workspace lengths and error codes of shsgs and shags", "statement": "ierror is 0 exactly when all ten size conditions hold and otherwise the number of the first that fails; the weights, the FFT table and the Legendre functions lie one after the other in the saved workspace and the last ends exactly at the required length; the field copy and the scratch rows fill exactly the required temporary length; the lengths computed by the Python class equal the required ones, so a call from Python passes all checks whenever nlat >= 3, nlon >= 4 and nt >= 1.", "quantifier": "for all sizes", "why_tests_cant": "The Fortran and Python length formulas are written differently and must agree for every grid.", "anchors": ["src/skyborn/spharm/src/shsgs.f90:shsgs", "src/skyborn/spharm/src/shags.f90:shags", "src/skyborn/spharm/spherical_harmonics.py:_compute_transform_sizes"]}
{"id": "C96", "title": "dnlfk and dnlft compute the normalised Legendre functions of orders 0 and 1", "statement": "For m = 0 or 1 and every degree n >= m, the Fourier coefficients stored by dnlfk, summed by dnlft at any colatitude t, give sqrt((2n+1)/2 (n-m)!/(n+m)!) sin(t)^m times the m-th derivative of the Legendre polynomial P_n at cos t. The scaling by powers of two in dnlfk cancels, and the array used has room for n/2 + 1 numbers.", "quantifier": "for all degrees n, both orders, all real colatitudes, any contents of the array on entry", "why_tests_cant": "The coefficients come from a three-term recursion started from a product whose length depends on the parity of n and m; a test can only compare finitely many degrees, and the rescaling inside the product only starts at high degree.", "anchors": ["src/skyborn/spharm/src/sphcom.f90:dnlfk", "src/skyborn/spharm/src/sphcom.f90:dnlft"]}
{"id": "C97", "title": "The stored table is the normalised Legendre function at every order and degree", "statement": "The initialisation shagsi (shagsp1, legin1, shagss1) leaves, for every order m below the truncation, every degree m <= n < nlat and every northern row, the normalised associated Legendre function of that order and degree at the colatitude of the row. This holds whatever the arrays contain on entry and whichever permutation of 1, 2, 3 an earlier call left in the saved variables km0, km1, km2.", "quantifier": "for all nlat, nlon, colatitudes, array contents and saved states", "why_tests_cant": "The recursion rotates three planes through saved variables and stores its coefficients in a packed triangle; correctness after an arbitrary history of earlier initialisations with other sizes cannot be enumerated.", "anchors": ["src/skyborn/spharm/src/shags.f90:shagsp1", "src/skyborn/spharm/src/shags.f90:shagss1", "src/skyborn/spharm/src/sphcom.f90:legin1"]}
{"id": "C98", "title": "With Gaussian points the scalar transforms synthesise spherical harmonics and invert each other", "statement": "When the weights integrate polynomials of degree below 2 nlat exactly and points and weights are symmetric, the stored functions are orthonormal under the quadrature and the odd ones vanish on the equator; the synthesis on the tables of shagsi is the truncated series of spherical harmonics at each grid point; and the analysis of the synthesis returns the coefficients, except the sine coefficients of order 0 and of order nlon/2.", "quantifier": "for all grid sizes, modes, coefficients and Gaussian points", "why_tests_cant": "Initialisation, synthesis and analysis have to agree for every grid size and every coefficient array; tests compare a few fields up to a tolerance.", "anchors": ["src/skyborn/spharm/src/shags.f90:shagsi", "src/skyborn/spharm/src/shags.f90:shags1", "src/skyborn/spharm/src/shsgs.f90:shsgs1"]}
{"id": "C99", "title": "Workspace lengths, codes and places of the Gaussian initialisation", "statement": "The code of shagsi is the number of the first of its five requirements that fails, 0 when none does, and then the inner check of shagsp passes as well. shagsp and legin place the six tables at the same positions, one after the other with exactly the room needed; the row-transform table and the Legendre functions are where shags and shsgs look for them; the scratch arrays fit in the required lengths; the lengths passed by the Python class are the required ones.", "quantifier": "for all sizes", "why_tests_cant": "The places are computed by different formulas in four routines and must agree for every nlat and nlon.", "anchors": ["src/skyborn/spharm/src/shags.f90:shagsi", "src/skyborn/spharm/src/shags.f90:shagsp", "src/skyborn/spharm/src/sphcom.f90:legin", "src/skyborn/spharm/spherical_harmonics.py:459-476"]}
{"id": "C100", "title": "cpdp and tpdp evaluate the Legendre polynomial and its derivative", "statement": "For every degree n >= 1 the cosine coefficients of cpdp, written at any offset of the output arrays, summed by tpdp at any colatitude t, give P_n(cos t) and its derivative in t, both divided by twice (2n)!/(4^n n!^2). cpdp writes exactly (n+1)/2 elements from the offset on, and tpdp reads only those.", "quantifier": "for all degrees, offsets, colatitudes and array contents", "why_tests_cant": "The coefficients come from a backward product recursion with a different start for even and odd degree; tests check a few degrees up to a tolerance.", "anchors": ["src/skyborn/spharm/src/gaqd.f90:cpdp", "src/skyborn/spharm/src/gaqd.f90:tpdp"]}
{"id": "C101", "title": "gaqd searches the Gaussian points by limited Newton steps and normalises the weights", "statement": "For nlat >= 3 gaqd succeeds inside its arrays, although it keeps its coefficients in the output arrays, never reads an undefined variable, takes at most 51 steps per point and returns: symmetric colatitudes; each northern one the first settled iterate (or the 51st) of Newton's method on P_nlat(cos t), cut at a fifth of the spacing, from the first guess or the linear extrapolation of the two points to its south; weights from the formula at the next to last iterate, symmetric and scaled to sum to two unless the raw sum is negligible. The result does not depend on the arrays passed in. Without latitudes the error is 1.", "quantifier": "for all nlat, tolerances and array contents", "why_tests_cant": "The output arrays double as work space with an overlap that depends on the parity of nlat; that no coefficient is overwritten before its last use has to hold for every size.", "anchors": ["src/skyborn/spharm/src/gaqd.f90:gaqd", "src/skyborn/spharm/src/gaqd.f90:kahan_sum"]}
{"id": "C102", "title": "At exact zeros the finished rule is the Gaussian quadrature", "statement": "P_n has n simple zeros between -1 and 1, symmetric, and no other colatitude is one. A search started at a zero stays there. If the northern points are exact zeros, the centre, mirror and normalisation of gaqd complete them to symmetric points and weights that integrate every polynomial of degree below 2 nlat exactly (nlat up to 2^53); for one and two latitudes this holds without search. The expression squared in the weight formula has zero derivative at a zero, so an error in a point enters the weight to second order.", "quantifier": "for all nlat", "why_tests_cant": "Exactness for every polynomial of degree below 2 nlat and every nlat is a theorem about zeros of orthogonal polynomials; tests compare tables of a few sizes.", "anchors": ["src/skyborn/spharm/src/gaqd.f90:gaqd"]}
{"id": "C103", "title": "spectogrd evaluates the spherical harmonic series", "statement": "Creating a Gaussian instance with stored functions succeeds for nlat >= 3, nlon >= 4, rsphere > 0 whatever the memory holds, with the points and weights of gaqd, and otherwise raises ValidationError. Each value of spectogrd is the series of the coefficients of its field at its colatitude and longitude, without the orders that a row of nlon values cannot carry; leading dimensions are nlat, nlon and the extra dimensions are kept; leftover memory has no effect. It agrees with getlegfunc and specintrp at every grid point.", "quantifier": "for all grid sizes, truncations below nlat, numbers of fields, coefficients and memory contents", "why_tests_cant": "Tests check a few sizes and single harmonics with tolerances; a mistake in one order at one parity of nlat or nlon, or in the order of extra dimensions, needs all sizes.", "anchors": ["src/skyborn/spharm/spherical_harmonics.py:spectogrd", "src/skyborn/spharm/spherical_harmonics.py:_validate_spectral_data", "src/skyborn/spharm/spherical_harmonics.py:_restore_grid_shape", "src/skyborn/spharm/src/shsgs.f90:shsgs"]}
{"id": "C104", "title": "grdtospec projects onto the harmonics", "statement": "Each coefficient of grdtospec with order below min(nlon/2+1, nlat) is the mean over longitude and weighted sum over latitude of its field times the normalised function times e^{-imx} (with the order nlon/2 shared between m and -m). With a truncation below that bound the result depends on the field only.", "quantifier": "for all grid sizes, truncations, numbers of fields, field values and memory contents", "why_tests_cant": "Tests compare round trips of smooth fields; independence of uninitialised memory cannot be observed by running.", "anchors": ["src/skyborn/spharm/spherical_harmonics.py:grdtospec", "src/skyborn/spharm/spherical_harmonics.py:_validate_grid_data", "src/skyborn/spharm/spherical_harmonics.py:_restore_spectral_shape", "src/skyborn/spharm/src/shags.f90:shags"]}
{"id": "C105", "title": "grdtospec is a function of its field for every accepted truncation", "statement": "For every accepted truncation, including the default nlat - 1, the coefficients of grdtospec are determined by the field.", "quantifier": "for all grid sizes, truncations, fields and memory contents", "why_tests_cant": "Uninitialised memory is often zero in tests, so a wrong coefficient looks right.", "anchors": ["src/skyborn/spharm/spherical_harmonics.py:grdtospec", "src/skyborn/spharm/_spherepack_module.c:py_shaes_like", "src/skyborn/spharm/src/shags.f90:shags1"]}
{"id": "C106", "title": "grdtospec inverts spectogrd", "statement": "With exact Gaussian points and weights, grdtospec of spectogrd gives back every coefficient of order below min(nlon/2+1, nlat), except the imaginary parts of order 0 and nlon/2, and zero for degrees beyond the spectrum, for any pair of truncations; for a truncation below that bound and real zonal coefficients the two calls are the identity on arrays of any rank.", "quantifier": "for all grid sizes, truncations, numbers of fields, coefficients and memory contents", "why_tests_cant": "Tests do round trips at a few truncations and one rank; they cannot cover all sizes and ranks.", "anchors": ["src/skyborn/spharm/spherical_harmonics.py:grdtospec", "src/skyborn/spharm/spherical_harmonics.py:spectogrd"]}
{"id": "C107", "title": "Errors and shapes of the scalar transforms, and Gaussian latitudes", "statement": "grdtospec raises ValidationError exactly for rank below 2, other leading sizes or a truncation outside 0..nlat-1; spectogrd exactly for rank 0 or at least (nlat+1)(nlat+2)/2 coefficients (fewer than 2^21 coefficients); with no field at all both raise SpheremackError 4; otherwise they return an array of the documented shape and never leave an array. gaussian_lats_wts returns nlat latitudes 90 - 180 colatitude / pi, antisymmetric about the equator, and raises SpheremackError for nlat <= 0.", "quantifier": "for all instances, shapes, truncations and elements", "why_tests_cant": "The classification covers every shape and truncation; tests try a few bad shapes.", "anchors": ["src/skyborn/spharm/spherical_harmonics.py:grdtospec", "src/skyborn/spharm/spherical_harmonics.py:spectogrd", "src/skyborn/spharm/spherical_harmonics.py:gaussian_lats_wts"]}
{"id": "C108", "title": "specsmooth multiplies each degree by its factor", "statement": "On a Gaussian grid each value of specsmooth is the series, over the orders the row carries, of the projections of the field times the factor of their degree, whatever uninitialised memory holds; with exact Gaussian points the smoothing of a synthesised field is the synthesis of the coefficients times the factors. A grid of the wrong shape or factors that are not one-dimensional of size nlat raise ValidationError.", "quantifier": "for all grid sizes, numbers of fields, field values, factors and memory contents", "why_tests_cant": "Independence of uninitialised memory cannot be observed by running, and tests use a few sizes.", "anchors": ["src/skyborn/spharm/spherical_harmonics.py:specsmooth", "src/skyborn/spharm/src/multsmoothfact.f90:multsmoothfact"]}
{"id": "C109", "title": "regrid evaluates the truncated series of the field on the new grid", "statement": "When the old rows carry every order the new rows use, each value of regrid is the series of the projections on the old grid up to the truncation (default: the smaller nlat - 1), times the optional factors, at the point of the new grid. From an exact Gaussian grid a field that is a series of that truncation is evaluated exactly. Bad shapes, truncations and factors raise ValidationError.", "quantifier": "for all pairs of grid sizes, truncations, numbers of fields, field values, factors and memory contents", "why_tests_cant": "Pairs of grids with different sizes and parities are endless; tests try one or two.", "anchors": ["src/skyborn/spharm/spherical_harmonics.py:regrid"]}
{"id": "C110", "title": "Every accepted regrid is determined by its arguments and stays inside its arrays", "statement": "For every accepted truncation and factors, regrid reads only its arrays and its result is determined by the field.", "quantifier": "for all pairs of grid sizes, truncations, fields, factors and memory contents", "why_tests_cant": "Reads past the end of the factors and of uninitialised memory give no error, and plausible numbers.", "anchors": ["src/skyborn/spharm/spherical_harmonics.py:regrid", "src/skyborn/spharm/src/multsmoothfact.f90:multsmoothfact"]}
{"id": "C111", "title": "Point evaluation uses the normalised associated Legendre functions", "statement": "For every degree n and integer order m, alfk followed by lfpt gives the normalised associated Legendre function of degree n and order m at every colatitude; getlegfunc returns all of them up to the truncation in spectral order, independently of what its arrays hold, and specintrp with them gives the spectral series at the point, equal to spectogrd at the points of a Gaussian grid.", "quantifier": "for all degrees, orders, colatitudes, latitudes, truncations, coefficients and array contents", "why_tests_cant": "Each degree and order has its own scaled product and recursion; a wrong factor for one order only shows for fields with that order, and reference tables stop at small degrees.", "anchors": ["src/skyborn/spharm/src/alf.f90:alfk", "src/skyborn/spharm/src/alf.f90:lfpt", "src/skyborn/spharm/src/getlegfunc.f90:getlegfunc"]}
{"id": "C112", "title": "The OpenMP directives of alfk do not change its result", "statement": "alfk returns the same coefficients whether its OMP SIMD PRIVATE clauses are comments or in force (the build passes -fopenmp).", "quantifier": "for all degrees, orders and contents of the private copies", "why_tests_cant": "A compiler may happen to keep the variables in registers and give the sequential result; the clause leaves the copies undefined for other compilers and options.", "anchors": ["src/skyborn/spharm/src/alf.f90:alfk", "src/skyborn/spharm/meson.build"]}
{"id": "C113", "title": "The Legendre tables of the reduced Gaussian grids", "statement": "For nlat >= 3 and 2 <= ntrunc < nlat, from any colatitudes placed symmetrically about the equator, reduced_gaussian_legendre_basis (shagsp, then legin for every order, then the mirrored store) returns code 0 and a table whose entry for row j, order m, degree n is the normalised associated Legendre function P(m,n) at the colatitude of row j, on both hemispheres, whatever the work arrays and the saved variables of legin1 hold on entry. The derivative table built from it is the derivative of P(m,n) in colatitude. With exact Gaussian points and weights the table is orthonormal and the gradients are orthogonal with squared norm n(n+1), and such points exist for every nlat from 3 to 2^53.", "quantifier": "all nlat >= 3, all 2 <= ntrunc < nlat, all symmetric colatitudes, all contents of the work arrays and all permutations saved by legin1", "why_tests_cant": "Tests compare a few truncations within single precision; they cannot show that the recursion, the position formula and the mirror sign are right for every order, degree and row, nor that the quadrature makes the functions and their gradients exactly orthogonal.", "anchors": ["src/skyborn/spharm/src/reduced_gaussian_scalar.f90:169-293", "src/skyborn/spharm/src/sphcom.f90:3539-3625", "src/skyborn/spharm/src/shags.f90:666-860", "src/skyborn/spharm/reduced_gaussian.py:68-81"]}
{"id": "C114", "title": "The reduced Gaussian transforms compute on the sphere", "statement": "With the tables the code builds at exact Gaussian points and rows of more than 2*ntrunc points: synthesis puts on every point of the packed grid the value of the truncated series of spherical harmonics at that point's colatitude and longitude; analysis of it returns the coefficients (without the imaginary parts of order 0); the gradient routine returns the gradient of that series on a sphere of radius r (derivative in longitude divided by r sin t, minus the derivative in colatitude divided by r); and vorticity and divergence of the winds made from two spectra are these spectra without their means. No orthogonality is assumed.", "quantifier": "all row-length lists, all truncations 2 <= ntrunc < nlat, all spectra, all exact Gaussian rules, all contents of work arrays", "why_tests_cant": "A test evaluates some fields on some grids to some digits; it cannot separate a wrong table entry or a wrong metric factor for a high order from rounding, and cannot cover all row layouts, truncations and spectra.", "anchors": ["src/skyborn/spharm/src/reduced_gaussian_scalar.f90:reduced_gaussian_legendre_basis", "src/skyborn/spharm/src/reduced_gaussian_scalar.f90:reduced_gaussian_legendre_derivative_from_basis", "src/skyborn/spharm/src/reduced_gaussian_scalar.f90:reduced_gaussian_grdtospec", "src/skyborn/spharm/src/reduced_gaussian_scalar.f90:reduced_gaussian_spectogrd", "src/skyborn/spharm/src/reduced_gaussian_scalar.f90:reduced_gaussian_getgrad", "src/skyborn/spharm/src/reduced_gaussian_scalar.f90:reduced_gaussian_getgrad_pair", "src/skyborn/spharm/src/reduced_gaussian_scalar.f90:reduced_gaussian_getvrtdivspec", "src/skyborn/spharm/reduced_gaussian.py:68-81"]}
{"id": "C115", "title": "Pressure and thickness on hybrid levels do not depend on the order of dimensions", "statement": "For DataArray input, whatever level name and output order are requested, the result has the level and the surface pressure's dimensions once each, the requested ones first in the requested order, and its value at any named position is the hybrid formula (or, for layers, the distance of the two interface pressures) of the surface pressure at that position; a dimension requested twice is refused; numpy input gives the level as first axis.", "quantifier": "all dimension names and numbers of dimensions, sizes, coefficients, surface pressures, requested orders", "why_tests_cant": "every permutation of an unbounded number of named dimensions", "anchors": ["src/skyborn/interp/interpolation.py:pressure_at_hybrid_levels", "src/skyborn/interp/interpolation.py:delta_pressure_hybrid", "src/skyborn/interp/interpolation.py:_finalize_hybrid_level_output", "src/skyborn/interp/interpolation.py:_rename_colliding_coeff_dim"]}
{"id": "C116", "title": "The backward-compatible hybrid pressure wrapper", "statement": "_pressure_from_hybrid gives, for every input that pressure_at_hybrid_levels accepts, the same pressures with the level first. True for DataArray input; false for numpy input, where it never returns.", "quantifier": "all inputs", "why_tests_cant": "the tests call the wrapper with DataArrays only", "anchors": ["src/skyborn/interp/interpolation.py:_pressure_from_hybrid", "src/skyborn/interp/interpolation.py:pressure_at_hybrid_levels"]}
