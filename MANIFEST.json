{
 "claims": [
  {
   "property": "C01",
   "status": "proved",
   "theorems": [
    "C01_tt_to_numpy"
   ],
   "note": ""
  },
  {
   "property": "C02",
   "status": "proved",
   "theorems": [
    "C02_cp_to_numpy"
   ],
   "note": ""
  },
  {
   "property": "C03",
   "status": "proved",
   "theorems": [
    "C03_tucker_to_numpy"
   ],
   "note": ""
  },
  {
   "property": "C04",
   "status": "proved",
   "theorems": [
    "C04_sparse_to_numpy",
    "C04_dense_sparse_roundtrip"
   ],
   "note": ""
  },
  {
   "property": "C05",
   "status": "proved",
   "theorems": [
    "C05_transpose",
    "C05_transpose_involutive"
   ],
   "note": ""
  },
  {
   "property": "C06",
   "status": "proved",
   "theorems": [
    "C06_div",
    "C06_div_zero",
    "C06_scalar_mul",
    "C06_list",
    "C06_neg"
   ],
   "note": ""
  },
  {
   "property": "C07",
   "status": "proved",
   "theorems": [
    "C07_add",
    "C07_sub",
    "C07_add_flat",
    "C07_iadd"
   ],
   "note": ""
  },
  {
   "property": "C08",
   "status": "proved",
   "theorems": [
    "C08_tt_add",
    "C08_single_mode_refuted"
   ],
   "note": "Proved for two or more modes; for one mode the code violates the claim (C08_single_mode_refuted)."
  },
  {
   "property": "C09",
   "status": "proved",
   "theorems": [
    "C09_dot",
    "C09_dot_sym",
    "C09_repeats_refuted"
   ],
   "note": "all pairs of formats incl. nested sums; needs at least one mode and repeat-free sparse coordinates (refuted otherwise)"
  },
  {
   "property": "C10",
   "status": "proved",
   "theorems": [
    "C10_norm"
   ],
   "note": ""
  },
  {
   "property": "C11",
   "status": "proved",
   "theorems": [
    "C11_gather",
    "C11_tt_out_of_range_refuted",
    "C11_raises",
    "C11_cp_short_refuted"
   ],
   "note": "in-range rows for TT, CP, Sparse; outside: a train raises IndexError only for its first mode and otherwise returns 0 (C11_tt_out_of_range_refuted), CP raises IndexError, Sparse ValueError (C11_raises); too few rows: TT/Sparse raise, CP silently drops factors (C11_cp_short_refuted). Negative indices are not modelled."
  },
  {
   "property": "C12",
   "status": "proved",
   "theorems": [
    "C12_orthogonalize"
   ],
   "note": ""
  },
  {
   "property": "C13",
   "status": "proved",
   "theorems": [
    "C13_round",
    "C13_ranks_do_not_grow"
   ],
   "note": "plus: no rank grows (C13_ranks_do_not_grow)"
  },
  {
   "property": "C14",
   "status": "proved",
   "theorems": [
    "C14_error_is_discarded",
    "C14_nothing_dropped",
    "C14_projection",
    "C14_eps_bound",
    "C14_bondwise_optimal",
    "C14_quasi_optimal",
    "C14_quasi_optimal_tt",
    "C14_exact_rank",
    "C14_default_exact",
    "C14_tolerance",
    "C14_tolerance_relative",
    "C14_eps_not_relative_error"
   ],
   "note": "error bound, quasi-optimality, exactness at sufficient rank, tolerance (C14_tolerance) and a refutation of reading eps as the relative error (C14_eps_not_relative_error); exact arithmetic"
  },
  {
   "property": "C15",
   "status": "proved",
   "theorems": [
    "C15_error"
   ],
   "note": ""
  },
  {
   "property": "C16",
   "status": "proved",
   "theorems": [
    "C16_split",
    "C16_split_sizes"
   ],
   "note": "plus the exact size of every piece"
  },
  {
   "property": "C17",
   "status": "proved",
   "theorems": [
    "C17_trim_greatest_feasible",
    "C17_trim_bounds",
    "C17_103_modes_refuted"
   ],
   "note": "positive as stated for <= 102 modes; refuted at 103 modes as stated"
  },
  {
   "property": "C18",
   "status": "proved",
   "theorems": [
    "C18_int",
    "C18_tuple",
    "C18_trim"
   ],
   "note": ""
  },
  {
   "property": "C19",
   "status": "proved",
   "theorems": [
    "C19_matricize_entries",
    "C19_roundtrip",
    "C19_leading_modes",
    "C19_any_modes",
    "C19_bad_modes"
   ],
   "note": "single modes, leading modes, and any list of distinct modes; repeated or out-of-range modes raise ValueError"
  },
  {
   "property": "C20",
   "status": "proved",
   "theorems": [
    "C20_shape_and_ranks",
    "C20_error_is_discarded",
    "C20_projection",
    "C20_nothing_dropped",
    "C20_bondwise_optimal",
    "C20_quasi_optimal",
    "C20_exact_rank",
    "C20_default_exact",
    "C20_one_mode"
   ],
   "note": ""
  },
  {
   "property": "C21",
   "status": "proved",
   "theorems": [
    "C21_streaming_sketch",
    "C21_repeated_coordinates",
    "C21_dense",
    "C21_stream_sketch_default"
   ],
   "note": "all four DRM classes on the formats they support (sparse, TT, CP, nested sums of them; dense arrays with their own row order); SparseSignDRM for coordinates whose words avoid the rounding of C38"
  },
  {
   "property": "C22",
   "status": "proved",
   "theorems": [
    "C22_sum_of_sketches",
    "C22_update",
    "C22_update_order"
   ],
   "note": "sum of sketches for any mixture of formats; stt + Y equals the sketch of X + Y; order of updates irrelevant"
  },
  {
   "property": "C23",
   "status": "proved",
   "theorems": [
    "C23_format_independent",
    "C23_dense_refuted",
    "C23_tucker_refuted"
   ],
   "note": "as stated; dense and Tucker storage refuted for three modes (C23_dense_refuted, C23_tucker_refuted)"
  },
  {
   "property": "C24",
   "status": "proved",
   "theorems": [
    "C24_blocked",
    "C24_blocked_equal"
   ],
   "note": "equality of the whole sketch objects"
  },
  {
   "property": "C25",
   "status": "proved",
   "theorems": [
    "C25_slice",
    "C25_dense_refuted",
    "C25_dense_gaussian_seed_refuted",
    "C25_blocked_dense_refuted",
    "C25_sign_nnz_refuted",
    "C25_dense_gaussian_refuted"
   ],
   "note": "for the supported combinations; the violations are theorems: C25_dense_refuted, C25_blocked_dense_refuted, C25_sign_nnz_refuted, C25_dense_gaussian_refuted, C25_dense_gaussian_seed_refuted"
  },
  {
   "property": "C26",
   "status": "proved",
   "theorems": [
    "C26_increase_rank",
    "C26_unsupported"
   ],
   "note": "DRM classes without increase_rank raise AttributeError (C26_unsupported)"
  },
  {
   "property": "C27",
   "status": "proved",
   "theorems": [
    "C27_to_tt",
    "C27_shapes"
   ],
   "note": ""
  },
  {
   "property": "C28",
   "status": "proved",
   "theorems": [
    "C28_exact_recovery",
    "C28_stream_sketch_default"
   ],
   "note": "the exact-recovery theorem is conditional on LAPACK's lstsq meeting lstsq_contract (least squares solution)"
  },
  {
   "property": "C29",
   "status": "proved",
   "theorems": [
    "C29_orthogonal_exact",
    "C29_orthogonal_sketch_default"
   ],
   "note": "default ranks: at most 102 modes because of trim_ranks (C17)"
  },
  {
   "property": "C30",
   "status": "proved",
   "theorems": [
    "C30_hmt_exact",
    "C30_hmt_sketch_default",
    "C30_return_drm_refuted"
   ],
   "note": "default ranks: at most 102 modes because of trim_ranks (C17); return_drm=True raises NameError"
  },
  {
   "property": "C31",
   "status": "proved",
   "theorems": [
    "C31_hmt",
    "C31_orthogonal"
   ],
   "note": ""
  },
  {
   "property": "C32",
   "status": "proved",
   "theorems": [
    "C32_transpose",
    "C32_reported_ranks_refuted",
    "C32_update_refuted"
   ],
   "note": "arrays as stated; reported ranks and updates of the transposed sketch refuted"
  },
  {
   "property": "C33",
   "status": "proved",
   "theorems": [
    "C33_scaling_refuted"
   ],
   "note": "refuted: every scaling raises"
  },
  {
   "property": "C34",
   "status": "proved",
   "theorems": [
    "C34_hash_bijective"
   ],
   "note": "explicit inverse"
  },
  {
   "property": "C35",
   "status": "proved",
   "theorems": [
    "C35_entry_function",
    "C35_window",
    "C35_reorder",
    "C35_shifted_seeds",
    "C35_next_mode_shares_rows",
    "C35_distinct_seeds",
    "C35_shifted_seeds_sign"
   ],
   "note": ""
  },
  {
   "property": "C36",
   "status": "proved",
   "theorems": [
    "C36_distinct_words",
    "C36_wraparound_refuted",
    "C36_entries_collide"
   ],
   "note": "positive as stated; wrap-around refuted for sizes (2^16,2^16,n); only hashed words, not the 52-bit random numbers, are distinct (C36_entries_collide)"
  },
  {
   "property": "C37",
   "status": "proved",
   "theorems": [
    "C37_decode",
    "C37_zero_occurs"
   ],
   "note": "also: the uniform value 0 (ndtri = -inf) occurs"
  },
  {
   "property": "C38",
   "status": "proved",
   "theorems": [
    "C38_rows",
    "C38_window_reorder",
    "C38_rounding_refuted"
   ],
   "note": "for words whose 52-bit fraction is not within rank of the maximum (no exception for nnz <= 1); refuted without (C38_rounding_refuted)"
  },
  {
   "property": "C39",
   "status": "proved",
   "theorems": [
    "C39_schedule_independent",
    "C39_terminates",
    "C39_thread_count_refuted"
   ],
   "note": "arbitrary interleaving of submissions and worker steps, arbitrary initial memory; dependence on the thread count shown (C39_thread_count_refuted)"
  },
  {
   "property": "C40",
   "status": "proved",
   "theorems": [
    "C40_call",
    "C40_eye",
    "C40_transpose",
    "C40_adjoint",
    "C40_to_tt",
    "C40_size",
    "C40_size_kept"
   ],
   "note": ""
  },
  {
   "property": "C41",
   "status": "proved",
   "theorems": [
    "C41_scaling",
    "C41_mutates_refuted"
   ],
   "note": "A*c denotes c*A, but A itself is scaled as well (C41_scaling); the claim that A is unchanged is refuted (C41_mutates_refuted)"
  },
  {
   "property": "C42",
   "status": "proved",
   "theorems": [
    "C42_forward",
    "C42_backward",
    "C42_singular",
    "C42_inverse",
    "C42_bad_mode"
   ],
   "note": "forward, backward, inverse in both orders, LinAlgError exactly for singular matrices, IndexError for a bad mode"
  },
  {
   "property": "C43",
   "status": "proved",
   "theorems": [
    "C43_constructor",
    "C43_shapes",
    "C43_call",
    "C43_call_mpo",
    "C43_summands"
   ],
   "note": "constructor checks, action, order of the summands"
  },
  {
   "property": "C44",
   "status": "proved",
   "theorems": [
    "C44_exact",
    "C44_pairwise",
    "C44_pairwise_single",
    "C44_none",
    "C44_sketch",
    "C44_orth_sketch",
    "C44_factor_rejected",
    "C44_pairwise_single_refuted",
    "C44_exact_rank",
    "C44_exact_tolerance",
    "C44_pairwise_full"
   ],
   "note": "exact, pairwise, sketch (also exactness under the rank condition), orth_sketch (<= 102 modes); one mode excluded (C08); the violation for a single summand is C44_pairwise_single_refuted; oversampling factor <= 1 rejected; exactness with a full budget and with the tolerance (C44_exact_rank, C44_exact_tolerance, C44_pairwise_full)"
  },
  {
   "property": "C45",
   "status": "proved",
   "theorems": [
    "C45_shape_checks",
    "C45_outcome",
    "C45_result_rank",
    "C45_arnoldi",
    "C45_residual_bound",
    "C45_exact",
    "C45_monotone",
    "C45_stop_rule",
    "C45_exact_guess_fails",
    "C45_small_rhs_stops",
    "C45_full_no_error",
    "C45_full_exact",
    "C45_rounding_errors",
    "C45_accuracy",
    "C45_no_progress",
    "C45_failures",
    "C45_full_outcome",
    "C45_final_exact",
    "C45_terminates"
   ],
   "note": "any number of iterations and any rounding method: Arnoldi relation, residual bound by measured rounding errors, monotone reported residuals, stopping rule, precise failure conditions (C45_failures), full-budget runs are exact GMRES and fail only when already solved (C45_full_outcome), finite termination: an injective system is solved exactly within prods(shape) iterations (C45_terminates, C45_final_exact); non-vacuity: C45_nonvacuous is a run that returns; exact arithmetic"
  },
  {
   "property": "C46",
   "status": "proved",
   "theorems": [
    "C46_stream_rejects",
    "C46_stream_accepts_and_updates",
    "C46_orthogonal_rejects",
    "C46_wrong_given_rank",
    "C46_left_required",
    "C46_wrong_length",
    "C46_wrong_length_right"
   ],
   "note": ""
  },
  {
   "property": "C47",
   "status": "proved",
   "theorems": [
    "C47_same_seed_stream",
    "C47_same_seed_orthogonal",
    "C47_same_seed_hmt",
    "C47_drms_given",
    "C47_across_processes",
    "C47_seed_period",
    "C47_seed_period_hmt",
    "C47_dense_seed_range",
    "C47_across_processes_refuted"
   ],
   "note": "Determinism is relative to the oracles (normal generators, ndtri, LAPACK); the cross-process part of the claim is refuted by C47_across_processes_refuted, and C47_across_processes says exactly when two processes agree."
  },
  {
   "property": "C48",
   "status": "proved",
   "theorems": [
    "C48_hilbert",
    "C48_sqrt_values",
    "C48_sqrt_values1",
    "C48_sqrt_no_modes",
    "C48_sqrt_shape_iff",
    "C48_sqrt_equal_sizes",
    "C48_power_decay",
    "C48_sqrt_swapped"
   ],
   "note": "The sqrt_tensor shape claim is refuted by C48_sqrt_swapped; C48_sqrt_values gives what is returned for all shapes. power_decay_tensor always raises NameError."
  },
  {
   "property": "C49",
   "status": "proved",
   "theorems": [
    "C49_idempotent",
    "C49_fixes",
    "C49_invertible",
    "C49_orthogonal",
    "C49_mismatch",
    "C49_unique"
   ],
   "note": "np.linalg.pinv is an oracle satisfying the Penrose conditions (existence: pinv0P). C49_fixes is an iff in terms of ranks."
  },
  {
   "property": "C50",
   "status": "proved",
   "theorems": [
    "C50_partial_dense_lr",
    "C50_partial_dense_rl"
   ],
   "note": "both directions; ranks > 0"
  },
  {
   "property": "C51",
   "status": "proved",
   "theorems": [
    "C51_zero",
    "C51_mpo_random",
    "C51_mpo_random_symmetric",
    "C51_tt_random",
    "C51_tt_random_orthog",
    "C51_tt_random_errors",
    "C51_cp_random",
    "C51_tucker_random",
    "C51_tucker_independent_refuted",
    "C51_sparse_random",
    "C51_dense_random",
    "C51_drm_cores_ok"
   ],
   "note": "zero, TensorTrain/CP/Tucker/Sparse/Dense.random, errors; orthog for <= 102 modes (trim_ranks' 100 sweeps) and any QR meeting its contract; also discharges the assumption tt_random_ok of the sketch theorems (C51_drm_cores_ok); MPO.random incl. symmetry"
  },
  {
   "property": "C52",
   "status": "proved",
   "theorems": [
    "C52_svdvals",
    "C52_first_twice",
    "C52_unique",
    "C52_misfit_raises"
   ],
   "note": ""
  },
  {
   "property": "C53",
   "status": "proved",
   "theorems": [
    "C53_gmres_total",
    "C53_tensor_origin",
    "C53_sketch_origin",
    "C53_gmres_origin",
    "C53_norm_total",
    "C53_orthogonalize_total",
    "C53_round_total",
    "C53_tt_svd_total",
    "C53_hmt_total"
   ],
   "note": "all model functions; totality with routines that always return, whose existence is shown in LinExist.v"
  },
  {
   "property": "C54",
   "status": "proved",
   "theorems": [
    "C54_hmt",
    "C54_hmt_structural",
    "C54_orthogonal",
    "C54_orthogonal_nystrom",
    "C54_projections",
    "C54_stream_right",
    "C54_stream_left",
    "C54_stream_sketch_default",
    "C54_hmt_sketch_default",
    "C54_orthogonal_sketch_default"
   ],
   "note": "hmt: any matrices M (C54_hmt) and the Halko-Martinsson-Tropp form (C54_hmt_structural); orthogonal: C54_orthogonal, C54_orthogonal_nystrom, no rank condition; streaming: exact product formula and error bound (C54_stream_right/left) for Omega of full rank, C54_projections; entry points *_sketch_default. Exact arithmetic over any real closed field. C54_nonvacuous in Prop_AccEx.v."
  },
  {
   "property": "C55",
   "status": "proved",
   "theorems": [
    "C55_stream_sketch",
    "C55_orthogonal_sketch",
    "C55_hmt_sketch",
    "C55_dense_refuted"
   ],
   "note": "Independent draws with values in a finite set, every outcome of probability at most p (ProbSpec.v, GenericSpec.v); the seed words of the cores of both DRMs must be distinct. C55_dense_refuted: false for dense arrays of three modes, for every draw."
  },
  {
   "property": "C56",
   "status": "proved",
   "theorems": [
    "C56_nothing_else_changes",
    "C56_T",
    "C56_mul",
    "C56_neg",
    "C56_mul_list",
    "C56_add",
    "C56_sub",
    "C56_dense",
    "C56_to_sparse",
    "C56_split",
    "C56_tt_add",
    "C56_to_numpy",
    "C56_constructors",
    "C56_gather",
    "C56_iadd",
    "C56_add_snapshot",
    "C56_write",
    "C56_mul_independent",
    "C56_tt_add_independent",
    "C56_to_numpy_independent",
    "C56_T_is_a_view",
    "C56_split_is_a_view",
    "C56_setitem",
    "C56_to_numpy_aliases_refuted",
    "C56_mul_shares_refuted",
    "C56_gather_stale_refuted",
    "C56_shared_list_refuted",
    "C56_self_nesting_refuted",
    "C56_setitem_stale_refuted",
    "C56_orthogonalize",
    "C56_round",
    "C56_sweep_independent",
    "C56_sweep_one_mode_refuted"
   ],
   "note": "Heap.v models buffers, views, Python lists and object identity. Proved: programs without in-place statements never change an existing tensor; every method refines the value-level model; exact effect and reach of +=, of element assignment and of X[k]=C; independence of X*c / add / to_numpy results where it holds. Refuted (C56_*_refuted): to_numpy of dense tensors and one-core trains aliases; CP and Tucker X*c share arrays; gather stale after writes; shared list in TensorSum(L); S += TensorSum([S]); shape attribute stale after X[k]=C. Index arrays of sparse tensors are immutable in the model."
  },
  {
   "property": "C57",
   "status": "proved",
   "theorems": [
    "C57_size",
    "C57_cp_size_refuted",
    "C57_sum_size_refuted",
    "C57_train_size",
    "C57_other_sizes",
    "C57_transpose_size",
    "C57_mul_size",
    "C57_add_size",
    "C57_to_sparse_size",
    "C57_nnz_refuted",
    "C57_split_size",
    "C57_round_smaller",
    "C57_round_budget",
    "C57_sketch_size",
    "C57_capabilities"
   ],
   "note": "CP tensors and sums containing one, and nnz of to_sparse, are refuted as stated"
  },
  {
   "property": "C58",
   "status": "proved",
   "theorems": [
    "C58_to_numpy",
    "C58_dot",
    "C58_norm",
    "C58_error",
    "C58_scaling_refuted",
    "C58_add",
    "C58_sketch_add",
    "C58_sketch_sub",
    "C58_sub_refuted",
    "C58_scaling",
    "C58_add_refuted",
    "C58_stands"
   ],
   "note": "A SketchedTensorTrain may stand anywhere a Tensor does in to_numpy, dot, norm, error, X + st, st + Y, st - Y (C58_to_numpy, C58_dot, C58_norm, C58_error, C58_add, C58_sketch_add, C58_sketch_sub); scaling, negation, division, Y - st and st + st' raise (C58_*_refuted)."
  },
  {
   "property": "C59",
   "status": "proved",
   "theorems": [
    "C59_crash_safe",
    "C59_complete",
    "C59_no_repeats",
    "C59_torn_save",
    "C59_overwrite",
    "C59_restart_adds_column",
    "C59_fewer_parameters_refuted",
    "C59_numeric_string_refuted",
    "C59_mixed_column_refuted",
    "C59_nan_refuted",
    "C59_result_named_as_parameter_refuted"
   ],
   "note": "C59_crash_safe, C59_complete, C59_no_repeats, C59_torn_save over all histories of interrupted sessions (CSV texts of numbers read back, one kind of value per column), C59_overwrite, C59_restart_adds_column; five C59_*_refuted show what goes wrong outside the hypotheses."
  },
  {
   "property": "C60",
   "status": "proved",
   "theorems": [
    "C60_stream",
    "C60_stream_zero",
    "C60_orthogonal",
    "C60_hmt",
    "C60_tt_svd",
    "C60_tt_round",
    "C60_tt_round_refuted",
    "C60_tt_error_func"
   ],
   "note": "End-to-end statements for the five experiment functions with default DRM types and default error function (C60_stream, C60_stream_zero, C60_orthogonal, C60_hmt, C60_tt_svd, C60_tt_round) and for tt_error_func; C60_tt_round_refuted: other formats raise AttributeError. Orthogonal and HMT sketches up to 102 modes (C17)."
  },
  {
   "property": "C61",
   "status": "proved",
   "theorems": [
    "C61_user_map",
    "C61_cookie_call",
    "C61_prepare",
    "C61_gmres_valid",
    "C61_centre",
    "C61_centre_refuted"
   ],
   "note": "map_ok / map_act of C43 and C45 now include user maps (MapUser): C61_user_map gives the sufficient condition. C61_centre_refuted: operator uses A^T, preconditioner uses A. Reading the .mat file is not modelled"
  },
  {
   "property": "C62",
   "status": "proved",
   "theorems": [
    "C62_errors",
    "C62_final_method_refuted",
    "C62_symmetric",
    "C62_symmetric_refuted"
   ],
   "note": "C62_final_method_refuted: final methods exact/pairwise raise AttributeError; C62_symmetric_refuted: symmetric=True not justified by symmetric matrices. Logging and timings not modelled"
  },
  {
   "property": "C63",
   "status": "proved",
   "theorems": [
    "C63_name",
    "C63_never_changed",
    "C63_content",
    "C63_complete",
    "C63_interrupted_refuted",
    "C63_same_name_refuted"
   ],
   "note": "C63_interrupted_refuted / C63_same_name_refuted: the naive completeness claim is false. Concurrent calls not modelled"
  },
  {
   "property": "C64",
   "status": "proved",
   "theorems": [
    "C64_shape_and_svals",
    "C64_timings",
    "C64_gaussian_same",
    "C64_not_orthogonal_refuted",
    "C64_timings_error"
   ],
   "note": "C64_gaussian_same and C64_not_orthogonal_refuted: the result of orthogonalize() is dropped; C64_timings_error: np.infa. Conclusions hold or LinAlgError is raised; at most 102 modes (C17)"
  },
  {
   "property": "C65",
   "status": "proved",
   "theorems": [
    "C65_train",
    "C65_cp",
    "C65_tucker",
    "C65_sum",
    "C65_undetected_refuted",
    "C65_tutorial_refuted"
   ],
   "note": "C65_undetected_refuted, C65_tutorial_refuted. Empty axes are excluded for trains and CP tensors; out-of-range coordinates of sparse tensors are C11/C04"
  },
  {
   "property": "C66",
   "status": "proved",
   "theorems": [
    "C66_any_schedule",
    "C66_recovers",
    "C66_all_finished",
    "C66_alone",
    "C66_lost_refuted",
    "C66_twice_refuted",
    "C66_shrinks_refuted"
   ],
   "note": "C66_any_schedule, C66_recovers, C66_all_finished by an invariant over all interleavings; C66_alone relates the model to C59; C66_lost_refuted, C66_twice_refuted, C66_shrinks_refuted. A save under way leaves some first rows; overlapping saves leave the file of the last one to end."
  },
  {
   "property": "C67",
   "status": "proved",
   "theorems": [
    "C67_never_wrong",
    "C67_all_done",
    "C67_alone",
    "C67_seen_refuted",
    "C67_own_refuted",
    "C67_zeros_stay_refuted"
   ],
   "note": "C67_never_wrong, C67_all_done by an invariant over all interleavings (the last process that opened the file decides); C67_alone relates the model to C63; C67_seen_refuted, C67_own_refuted, C67_zeros_stay_refuted. The server sends the same content to every process."
  },
  {
   "property": "C68",
   "status": "proved",
   "theorems": [
    "C68_to_numpy",
    "C68_gather",
    "C68_two_machines",
    "C68_gather_to_numpy",
    "C68_perturbed",
    "C68_perturbed_to_numpy",
    "C68_scaled",
    "C68_dot",
    "C68_nonnegative",
    "C68_gamma",
    "C68_defined",
    "C68_exact",
    "C68_exact_gather",
    "C68_exact_dot",
    "C68_sharp"
   ],
   "note": "FlModel.v is a relation (operands can give this result) for the same lines that Tensor.v models exactly; C68_exact* show that without rounding it is that model, C68_defined that every rounding function gives a result, C68_sharp that the bound is attained for every n. Error calculus in FlThy1. LAPACK-based methods (round, sketch recovery, norm of a train) are not covered by rounding analysis."
  },
  {
   "property": "C69",
   "status": "proved",
   "theorems": [
    "C69_process",
    "C69_process_errors",
    "C69_too_few",
    "C69_too_few_refuted",
    "C69_cached",
    "C69_never_wrong",
    "C69_complete",
    "C69_interrupted_refuted"
   ],
   "note": ""
  },
  {
   "property": "C70",
   "status": "proved",
   "theorems": [
    "C70_read",
    "C70_wide_gap_refuted",
    "C70_padded_refuted"
   ],
   "note": ""
  }
 ]
}