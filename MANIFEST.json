{
 "claims": [
  {
   "property": "C01",
   "status": "proved",
   "theorems": [
    "C01_keys_invariant",
    "C01_init_defaults",
    "C01_foreign_object_refuted"
   ],
   "note": "Invariant over all operation sequences on the tree; inserting a foreign options object as a value is refuted."
  },
  {
   "property": "C02",
   "status": "proved",
   "theorems": [
    "C02_get_after_set",
    "C02_frame",
    "C02_failed_set_no_change",
    "C02_update_overlays"
   ],
   "note": "Get-after-set, frame, failed set leaves the tree unchanged, update overlays."
  },
  {
   "property": "C03",
   "status": "proved",
   "theorems": [
    "C03_leaf_accepted_iff",
    "C03_leaf_errors",
    "C03_update_accepted_iff",
    "C03_no_fuel",
    "C03_documented_errors_refuted",
    "C03_keycmp_iff"
   ],
   "note": "Acceptance characterised exactly; the documented error classes are refuted for one case."
  },
  {
   "property": "C04",
   "status": "partial",
   "theorems": [
    "C04_atomic_update_refuted",
    "C04_update_mixed_partial"
   ],
   "note": "The all-or-nothing claim is false of the code (C04_atomic_update_refuted); the exact mixed result is proved in C04_update_mixed_partial."
  },
  {
   "property": "C05",
   "status": "proved",
   "theorems": [
    "C05_objects_independent"
   ],
   "note": "Full non-interference for all histories of creations, assignments and updates."
  },
  {
   "property": "C06",
   "status": "proved",
   "theorems": [
    "C06_elapsed_is_charged_time",
    "C06_elapsed_default_label",
    "C06_start_stop_idempotent"
   ],
   "note": "For all event histories and clock readings."
  },
  {
   "property": "C07",
   "status": "proved",
   "theorems": [
    "C07_other_labels_unchanged",
    "C07_errors_iff_unknown",
    "C07_elapsed_monotone"
   ],
   "note": "Non-interference, error characterisation, monotonicity."
  },
  {
   "property": "C08",
   "status": "proved",
   "theorems": [
    "C08_start_stop_block",
    "C08_stop_start_block",
    "C08_nested_refuted"
   ],
   "note": "Exact for un-nested blocks; nesting refuted (C08_nested_refuted)."
  },
  {
   "property": "C09",
   "status": "proved",
   "theorems": [
    "C09_first_non_timeout_decides",
    "C09_exhausted",
    "C09_attempt_bound",
    "C09_read_timeout_retried_refuted"
   ],
   "note": "Retry rule for urlopen timeouts; the claim for timeouts raised while reading is refuted."
  },
  {
   "property": "C10",
   "status": "proved",
   "theorems": [
    "C10_optimum",
    "C10_errors"
   ],
   "note": "Optimality, first in lexicographic order, consistency of the four results, exact errors. Vector-valued functions are modelled componentwise."
  },
  {
   "property": "C11",
   "status": "proved",
   "theorems": [
    "C11_partition",
    "C11_balanced",
    "C11_same_as_serial",
    "C11_collectives_vector_iff",
    "C11_collectives_match_refuted"
   ],
   "note": "Partition, balance, equality with the serial search; collective sequence matches iff points >= ranks for vector-valued functions (refuted in general)."
  },
  {
   "property": "C12",
   "status": "partial",
   "theorems": [
    "C12_transpose",
    "C12_roundtrip_partial",
    "C12_table_refuted"
   ],
   "note": "Transposition proved for all tables; the round trip through ntpl2array/array2ntpl is the identity exactly for scalar fields and raises for transposed tables of two or more rows (C12_table_refuted). Type promotion by hstack is not modelled."
  },
  {
   "property": "C13",
   "status": "proved",
   "theorems": [
    "C13_rolling_window",
    "C13_rolling_window_count",
    "C13_wrap",
    "C13_wrap_contract",
    "C13_subsample"
   ],
   "note": "For arbitrary strides, shapes, windows and steps; np.pad enters through a contract which the 'wrap' mode is proved to meet."
  },
  {
   "property": "C14",
   "status": "proved",
   "theorems": [
    "C14_extract",
    "C14_combine",
    "C14_average",
    "C14_combine_extracted",
    "C14_average_extracted"
   ],
   "note": "Extraction grid exact, element-wise content and order; combination and averaging characterised for arbitrary blocks, and exact recovery for unmodified blocks."
  },
  {
   "property": "C15",
   "status": "proved",
   "theorems": [
    "C15_prox_l1_minimises",
    "C15_numexpr_agrees",
    "C15_nonexpansive_odd",
    "C15_negative_threshold_refuted"
   ],
   "note": "Unique minimiser for element-wise nonnegative thresholds, numpy and numexpr versions agree, nonexpansive, odd. The two versions differ for negative thresholds (refutation kept). Complex arrays: see C64."
  },
  {
   "property": "C16",
   "status": "proved",
   "theorems": [
    "C16_prox_l0_minimises",
    "C16_hard_threshold"
   ],
   "note": "Global minimality including ties; exact hard-threshold rule."
  },
  {
   "property": "C17",
   "status": "proved",
   "theorems": [
    "C17_prox_l2_minimises",
    "C17_prox_l2_groups",
    "C17_proj_l2_nearest",
    "C17_proj_l2ball_nearest"
   ],
   "note": "Unique minimiser, groups, unique nearest points of balls."
  },
  {
   "property": "C18",
   "status": "proved",
   "theorems": [
    "C18_sortsum_nearest",
    "C18_scalarroot_nearest",
    "C18_brentq_precondition",
    "C18_methods_agree",
    "C18_dispatch"
   ],
   "note": "Both algorithms give the unique nearest point; brentq is an argument with its contract for the call made, whose precondition is proved."
  },
  {
   "property": "C19",
   "status": "proved",
   "theorems": [
    "C19_prox_sl1l2_minimises",
    "C19_groups"
   ],
   "note": "Unique minimiser per group and for arrays of groups."
  },
  {
   "property": "C20",
   "status": "proved",
   "theorems": [
    "C20_prox_dl1l2_minimises",
    "C20_axis_minimises",
    "C20_beta_range_refuted"
   ],
   "note": "Global minimality for both code branches for alpha >= 0, 0 <= beta <= 1; false for beta > 1."
  },
  {
   "property": "C21",
   "status": "proved",
   "theorems": [
    "C21_solvedbi_sm",
    "C21_solvedbd_sm"
   ],
   "note": "Exact solution and uniqueness over any numClosedFieldType, with or without the cached coefficient."
  },
  {
   "property": "C22",
   "status": "proved",
   "theorems": [
    "C22_solvemdbi_ism",
    "C22_solvemdbi_rsm",
    "C22_methods_agree"
   ],
   "note": "Induction over the number of blocks for both algorithms; they agree."
  },
  {
   "property": "C23",
   "status": "proved",
   "theorems": [
    "C23_ATAI",
    "C23_AATI",
    "C23_positive_rho"
   ],
   "note": "Both shape cases; factorisation routine is an argument with its contract; invertibility proved for rho > 0."
  },
  {
   "property": "C24",
   "status": "partial",
   "theorems": [
    "C24_sylvester_partial",
    "C24_indefinite_refuted",
    "C24_sylvester_absolute"
   ],
   "note": "False for indefinite full matrices (C24_indefinite_refuted); exact for positive semi-definite ones and for diagonal or decomposed arguments; C24_sylvester_absolute says what is computed in general."
  },
  {
   "property": "C25",
   "status": "partial",
   "theorems": [
    "C25_adjoint",
    "C25_forward_difference",
    "C25_adjoint_zero_pad",
    "C25_one_sample_refuted",
    "C25_negative_axis_refuted"
   ],
   "note": "C25_adjoint proves the claim for every array with at least two samples on a non-negative axis; C25_adjoint_zero_pad for the zero padded variant. The full claim is false for a negative axis (C25_negative_axis_refuted: the boundary is set on axis 0) and an axis with one sample is an error (C25_one_sample_refuted)."
  },
  {
   "property": "C26",
   "status": "partial",
   "theorems": [
    "C26_tvl2_adjoint_iff",
    "C26_tvl1_adjoint_iff",
    "C26_any_axes_refuted"
   ],
   "note": "Refuted in full generality: adjoint for all arrays exactly when the axes are 0..m-1 in order (C26_tvl2_adjoint_iff, C26_tvl1_adjoint_iff are equivalences), so the claim for any choice of axes is false (C26_any_axes_refuted)."
  },
  {
   "property": "C27",
   "status": "proved",
   "theorems": [
    "C27_fixed_iff_normal",
    "C27_fixed_iff_minimiser",
    "C27_contraction",
    "C27_xstep_loop"
   ],
   "note": "Equivalence with the normal equations for every tuple of axes; equivalence with the minimisers of the x sub-problem for axes 0..m-1 (see C26); contraction in the maximum norm; loop bound of the x-step. The TVL1 step is the instance rho = W2 = 1. Real arithmetic."
  },
  {
   "property": "C28",
   "status": "proved",
   "theorems": [
    "C28_full_spectrum",
    "C28_half_spectrum",
    "C28_inverse_real"
   ],
   "note": "Arrays of any dimension, any non-empty set of distinct non-negative axes, every length (even and odd). The transforms are the DFT sums in exact arithmetic."
  },
  {
   "property": "C29",
   "status": "proved",
   "theorems": [
    "C29_circular_complex",
    "C29_circular_real",
    "C29_circular_1d"
   ],
   "note": "Real (half spectrum) and complex branches, any number of distinct axes, any integer origins, zero padding to the larger size, broadcasting on the other axes. Exact arithmetic."
  },
  {
   "property": "C30",
   "status": "partial",
   "theorems": [
    "C30_layout",
    "C30_sizes",
    "C30_update_agrees",
    "C30_block_sizes",
    "C30_rejects_refuted",
    "C30_extra_axes_refuted"
   ],
   "note": "Proved for every signal and dictionary of the documented shapes and every admissible dimK (C30_layout, C30_sizes, C30_update_agrees, C30_block_sizes). The rejection clause is false: extra axes and inconsistent dimK are accepted with sizes that do not match (C30_rejects_refuted, C30_extra_axes_refuted)."
  },
  {
   "property": "C31",
   "status": "partial",
   "theorems": [
    "C31_support",
    "C31_unit_norm",
    "C31_zero_mean",
    "C31_nearest",
    "C31_idempotent",
    "C31_cropped_agrees",
    "C31_Pcn_agrees",
    "C31_zero_mean_dimN_refuted"
   ],
   "note": "Support, unit norm, zero mean, nearest point and idempotence are proved for every variant returned by getPcn except zero mean without cropping when dimN is not 2: that one does not pass dimN to zeromean, and the claim is refuted for it (C31_zero_mean_dimN_refuted)."
  },
  {
   "property": "C32",
   "status": "partial",
   "theorems": [
    "C32_accounting_partial",
    "C32_zero_iterations_refuted"
   ],
   "note": "Counter and statistics accounting proved for all histories of calls with MaxMainIter >= 1 and without FastSolve; false for MaxMainIter = 0 (C32_zero_iterations_refuted)."
  },
  {
   "property": "C33",
   "status": "proved",
   "theorems": [
    "C33_admm_stopping",
    "C33_pgm_stopping",
    "C33_dictlearn_stopping"
   ],
   "note": "Exact stopping iteration of the ADMM, PGM and dictionary learning loops for arbitrary step, residual and callback functions."
  },
  {
   "property": "C34",
   "status": "proved",
   "theorems": [
    "C34_update",
    "C34_history",
    "C34_period",
    "C34_effect"
   ],
   "note": "Update rule, scaling of the dual variable, period, and effect on a whole history of iterations."
  },
  {
   "property": "C35",
   "status": "partial",
   "theorems": [
    "C35_equal",
    "C35_two_block",
    "C35_two_block_dual",
    "C35_two_block_dual_relaxed_refuted",
    "C35_two_block_dual_norm_refuted",
    "C35_consensus",
    "C35_weighted",
    "C35_weighted_norms_refuted"
   ],
   "note": "Agreement proved for ADMMEqual, ADMMTwoBlockCnstrnt and ADMMConsensus. Refuted with exact characterisation where the code departs: the overriding dual residual of the two-block problems (bpdn.MinL1InL2Ball, cbpdn.ConvTwoBlockCnstrnt) equals the general one without relaxation and otherwise satisfies s' = (1 - alpha) s'_prev + s; its normalisation omits A^T; WeightedADMMConsensus normalises by sqrt(sum alpha^2) and by the unweighted U."
  },
  {
   "property": "C36",
   "status": "partial",
   "theorems": [
    "C36_stationary_optimal",
    "C36_optimal_stationary",
    "C36_bpdn",
    "C36_enet",
    "C36_joint",
    "C36_projl1",
    "C36_minl1",
    "C36_rpca",
    "C36_weighted"
   ],
   "note": "General theorem C36_stationary_optimal and its converse; concrete for BPDN, ElasticNet, BPDNJoint, BPDNProjL1 (no NonNegCoef for the last two), MinL1InL2Ball, RobustPCA and (weighted) consensus; ConvBPDN, ConvElasticNet and ConvBPDNGradReg are in C72, the mask-decoupled and l2-constrained classes in C73, TVL2Deconv and TVL1Deconv in C75, ConvBPDNScalarTV and ConvBPDNVectorTV in C76. TVL2Denoise/TVL1Denoise (inexact x step) are not instantiated."
  },
  {
   "property": "C37",
   "status": "partial",
   "theorems": [
    "C37_bpdn_x",
    "C37_enet_x",
    "C37_minl1_x",
    "C37_bpdn_y",
    "C37_joint_y",
    "C37_projl1_y",
    "C37_minl1_y",
    "C37_joint_nonneg_refuted",
    "C37_projl1_nonneg_refuted",
    "C37_rpca_x",
    "C37_rpca_y",
    "C37_cmod_x",
    "C37_cmod_y",
    "C37_cmod_zero_column_refuted",
    "C37_weighted_y",
    "C37_consensus_is_weighted"
   ],
   "note": "Proved for the x and y steps of BPDN (with NonNegCoef), ElasticNet, BPDNJoint, BPDNProjL1, MinL1InL2Ball, RobustPCA, CnstrMOD and the consensus classes. Refuted for NonNegCoef with BPDNJoint and BPDNProjL1 (clipping after the prox is not the minimiser) and for zero columns in CnstrMOD. The x steps of the convolutional classes are the subject of C71."
  },
  {
   "property": "C38",
   "status": "proved",
   "theorems": [
    "C38_distance",
    "C38_distance_relaxed",
    "C38_convergence",
    "C38_bpdn",
    "C38_bpdn_returned",
    "C38_enet_returned"
   ],
   "note": "Distance theorem for relaxation 1 from any start; for relaxation in [0,2] in the z = U - (BY - c) variable from the second iterate on. Convergence of residuals and of the objective for relaxation in (0,2); for BPDN and ElasticNet also of the objective of the returned array (C38_bpdn_returned, C38_enet_returned)."
  },
  {
   "property": "C39",
   "status": "partial",
   "theorems": [
    "C39_recorded",
    "C39_exact",
    "C39_first_value_refuted",
    "C39_small_L_refuted",
    "C39_dft_refuted",
    "C39_dft",
    "C39_bpdn"
   ],
   "note": "Proved for the recorded objective: it never increases from one monotone iteration to the next for any step size policy and line search (C39_recorded), and the recorded value is the objective at the current iterate (C39_exact, and C39_bpdn for BPDN). Refuted: the comparison needs a previous value, so the first iteration may end above the starting point (C39_first_value_refuted, C39_small_L_refuted); PGMDFT reverts the transformed iterate only, so the returned array is not the point whose objective was recorded (C39_dft_refuted, C39_dft gives what does hold)."
  },
  {
   "property": "C40",
   "status": "partial",
   "theorems": [
    "C40_half_spectrum_refuted",
    "C40_standard",
    "C40_standard_limit",
    "C40_standard_enough",
    "C40_robust",
    "C40_robust_limit",
    "C40_no_failure",
    "C40_maxiter_zero_refuted"
   ],
   "note": "Line searches: termination within maxiter, the accepted step satisfies the tested bound, L never falls below its start (standard), robust search likewise; no failure. Refuted: maxiter 0 returns without assigning (C40_maxiter_zero_refuted); for the convolutional classes the test uses the unweighted half spectrum and accepts a step at which the upper bound of the data term is violated (C40_half_spectrum_refuted)."
  },
  {
   "property": "C41",
   "status": "partial",
   "theorems": [
    "C41_nesterov",
    "C41_nesterov_growth",
    "C41_nesterov_accelerates",
    "C41_linear_accelerates",
    "C41_genlinear_tail",
    "C41_genlinear_refuted"
   ],
   "note": "Nesterov and linear momentum accelerate (1 <= t_k and t_{k+1}^2 - t_{k+1} <= t_k^2); generalised linear momentum with parameters outside the documented range is refuted (C41_genlinear_refuted), its tail behaviour is characterised (C41_genlinear_tail)."
  },
  {
   "property": "C42",
   "status": "proved",
   "theorems": [
    "C42_cbpdn",
    "C42_cbpdn_mask",
    "C42_cconv_usual",
    "C42_fixed_optimal",
    "C42_optimal_fixed",
    "C42_descent",
    "C42_rate_fixed",
    "C42_fista",
    "C42_rate_standard",
    "C42_rate_robust",
    "C42_dft_same",
    "C42_bpdn",
    "C42_bpdn_fixed",
    "C42_wbpdn"
   ],
   "note": "Fixed points are exactly the minimisers; sufficient decrease; rates for fixed L, standard and robust line search; DFT-domain iteration equals the signal-domain one; instances BPDN, WeightedBPDN, and ConvBPDN and ConvBPDNMask with one spatial axis and one channel (any number of axes, channels and signals: C83)."
  },
  {
   "property": "C43",
   "status": "partial",
   "theorems": [
    "C43_rule",
    "C43_user_value_wins",
    "C43_class_default_partial",
    "C43_class_default_refuted"
   ],
   "note": "User values always win. Class default takes effect for fourteen classes; refuted for seven (base constant wins), see C43_class_default_refuted."
  },
  {
   "property": "C44",
   "status": "partial",
   "theorems": [
    "C44_exact",
    "C44_same",
    "C44_default_penalty_refuted",
    "C44_penalty_change_refuted",
    "C44_construct_iff"
   ],
   "note": "Proved for every history of dictionary changes, penalty updates and x-steps (adaptive executions): with a valid cache the x-step solves the normal equations of the current dictionary and penalty and the option changes no result. Refuted and exactly delimited: default penalty (cache filled before rho is set), penalty updates in ConvElasticNet and ConvBPDNGradReg (inherited rhochange), construction of ConvL1L1Grd and ConvProdDictL1L1Grd fails."
  },
  {
   "property": "C45",
   "status": "proved",
   "theorems": [
    "C45_groups",
    "C45_schedule",
    "C45_solve"
   ],
   "note": "Actions of the group tasks (element computations and stores on shared arrays) under any interleaving that finishes them; whole histories of solve calls. mp_grp: ValueError exactly if there are more groups than filters or none."
  },
  {
   "property": "C46",
   "status": "partial",
   "theorems": [
    "C46_y0",
    "C46_y1",
    "C46_channel_axis"
   ],
   "note": "Y0 and Y1 updates proved exact (and unique) for all groups, masks, options. The right hand side of the x step for multi-channel dictionaries uses axis=mp_C, the channel axis only if the number of channels is dimN+1 (refuted otherwise, C46_channel_axis)."
  },
  {
   "property": "C47",
   "status": "partial",
   "theorems": [
    "C47_iterations",
    "C47_count",
    "C47_gap",
    "C47_gap_refuted",
    "C47_residual",
    "C47_residual_refuted"
   ],
   "note": "Refuted + exact characterisation: Y/U iterates are those of the ADMM specification for every history of calls unless a call ends at its limit with iteration 256 and another follows (identity comparison of integers above 256; C47_gap, C47_gap_refuted); the reported primal residual belongs to the next coefficient maps except in the last iteration (C47_residual, C47_residual_refuted)."
  },
  {
   "property": "C48",
   "status": "partial",
   "theorems": [
    "C48_one_after_the_other",
    "C48_last_constructed",
    "C48_refuted",
    "C48_start_values_refuted",
    "C48_start_values_all_refuted"
   ],
   "note": "Refuted + exact characterisation: solve uses the data of the last constructed object (C48_last_constructed, C48_refuted); objects used one after the other do not interfere (C48_one_after_the_other); start values Y0/Y1/U0/U1 are written to the wrong variables (C48_start_values_refuted). For each of the four start values and any combination: never used, the array keeps what an earlier object left, and solve fails exactly if no earlier object created it (C48_start_values_all_refuted)."
  },
  {
   "property": "C49",
   "status": "proved",
   "theorems": [
    "C49_schedule",
    "C49_schedule_complete",
    "C49_solve",
    "C49_numbering",
    "C49_numbering_refuted",
    "C49_serial",
    "C49_options_refuted",
    "C49_masked"
   ],
   "note": "Every completed schedule of the worker processes gives the result of the sequential program (C49_schedule), a schedule always completes (C49_schedule_complete), and whole solves agree (C49_solve, C49_serial). Extra findings: the options NonNegCoef, L1Weight and NoBndryCross are accepted but ignored by the parallel class (C49_options_refuted), and MaxMainIter=0 leaves a gap in the numbering (C49_numbering_refuted). After each iteration of the masked class W^2 Y = rho U holds for each signal with its own mask, in both steps (C49_masked)."
  },
  {
   "property": "C50",
   "status": "proved",
   "theorems": [
    "C50_coherent",
    "C50_iteration",
    "C50_accurate",
    "C50_estimate",
    "C50_objective_refuted"
   ],
   "note": "Coherence of the alternation for any component solvers, and exact contents of the recorded objective. Extra finding: with ReturnX or an L1Weight array the recorded objective is not that of the returned pair (C50_objective_refuted)."
  },
  {
   "property": "C51",
   "status": "proved",
   "theorems": [
    "C51_feasible",
    "C51_records",
    "C51_step_sizes"
   ],
   "note": "Feasibility after any sequence of calls, including ones that raise exceptions; exact step sizes; positive, strictly decreasing, divergent sum, bounded sum of squares."
  },
  {
   "property": "C52",
   "status": "partial",
   "theorems": [
    "C52_cbpdndl",
    "C52_bpdndl",
    "C52_wbpdndl",
    "C52_default_config",
    "C52_default_config_refuted",
    "C52_option_change_refuted",
    "C52_fastsolve",
    "C52_record",
    "C52_documented",
    "C52_documented_refuted",
    "C52_display",
    "C52_display_hidden",
    "C52_online",
    "C52_online_norecord",
    "C52_parallel"
   ],
   "note": "For every solver class, method combination and option setting a record has one value per declared field, each field and each displayed column holds the quantity its name stands for; refuted: PGM documents a field IterBtrack that does not exist, the default DictLearn configuration fails for proximal gradient sub-solvers (exact characterisation proved), switching AccurateDFid off after construction raises."
  },
  {
   "property": "C53",
   "status": "partial",
   "theorems": [
    "C53_lengths",
    "C53_consistent",
    "C53_long_label_refuted",
    "C53_labels",
    "C53_rejects"
   ],
   "note": "Exact lengths for all labels, formats and values: header, separator and lines agree if and only if every label fits its column (values fitting theirs); false for longer labels because the header field pads but never truncates (C53_long_label_refuted). The labels used by the classes of the package all fit. Every label starts at the position of its column (C53_labels)."
  },
  {
   "property": "C54",
   "status": "proved",
   "theorems": [
    "C54_points",
    "C54_points_nozero",
    "C54_kernel",
    "C54_filters_normalised",
    "C54_filters_sum_one",
    "C54_filters_at_samples"
   ],
   "note": "All numbers of points and all kernel widths over the reals; filters are normalised whenever the raw kernel sum is not zero, which is the division the code performs."
  },
  {
   "property": "C55",
   "status": "partial",
   "theorems": [
    "C55_lstabsdev",
    "C55_lstmaxdev",
    "C55_well_posed",
    "C55_no_rows_refuted"
   ],
   "note": "Exact for every problem with at least one row whose linear program is solved exactly; for an array without rows the reshape of the solver result fails (C55_no_rows_refuted)."
  },
  {
   "property": "C56",
   "status": "partial",
   "theorems": [
    "C56_mae",
    "C56_mse",
    "C56_snr_decreasing",
    "C56_psnr_decreasing",
    "C56_invariant",
    "C56_isnr",
    "C56_psnr_int8_refuted",
    "C56_bsnr_uint8_refuted"
   ],
   "note": "Distances and monotonicity proved over the reals for every pair of images. For integer arrays the dynamic range and the noise variance are computed in the input type and wrap around (C56_psnr_int8_refuted, C56_bsnr_uint8_refuted). pamse and gmsd are not modelled."
  },
  {
   "property": "C57",
   "status": "partial",
   "theorems": [
    "C57_tiling",
    "C57_grid",
    "C57_defined",
    "C57_normalised",
    "C57_constant_refuted"
   ],
   "note": "The tiling statement holds for every non-empty dictionary and every consistent list of sizes; the displayed values are undefined (0/0) for a constant dictionary (C57_constant_refuted)."
  },
  {
   "property": "C58",
   "status": "partial",
   "theorems": [
    "C58_construct_iff",
    "C58_valid_options_refuted"
   ],
   "note": "The statement is false (C58_valid_options_refuted); C58_construct_iff gives the exact set of failing combinations."
  },
  {
   "property": "C59",
   "status": "partial",
   "theorems": [
    "C59_exact",
    "C59_size_one_refuted",
    "C59_size_one_witness",
    "C59_characterised",
    "C59_no_wrap",
    "C59_ystep_minimises"
   ],
   "note": "Exact for filters of at least two samples along every axis, including the effect on the reconstruction (no wrap-around) and minimality of the constrained step; false for filters of size one along an axis, where the slice starts at 0 and all coefficients are removed (C59_size_one_refuted)."
  },
  {
   "property": "C60",
   "status": "proved",
   "theorems": [
    "C60_norm_nuclear",
    "C60_prox_nuclear"
   ],
   "note": "prox_nuclear and norm_nuclear against the variational definition of the nuclear norm, for any SVD routine meeting its contract."
  },
  {
   "property": "C61",
   "status": "partial",
   "theorems": [
    "C61_sum",
    "C61_sum_cplx",
    "C61_lowpass_minimises",
    "C61_lowpass_minimises_cplx",
    "C61_mean_kept",
    "C61_pad_reflects",
    "C61_pad_crop",
    "C61_integer_refuted",
    "C61_integer",
    "C61_one_pixel_refuted",
    "C61_gaussian",
    "C61_lcn_window",
    "C61_lcn_inverse",
    "C61_lcn_inverse_default",
    "C61_lcn_constant_refuted",
    "C61_lcn_n0_refuted"
   ],
   "note": "Components sum to the signal for real and complex signals and the low-pass part is the unique minimiser of the documented energy; padding and cropping characterised. Refuted for integer signals (truncated), for unpadded single-row or single-column images (filters cut by the FFT length), for contrast normalisation of constant images (0/0) and n=0 (empty arrays); the inverse identity for contrast normalisation is proved whenever c>0 or some local norm is non-zero. For integer signals each component is off by less than one and the sum by at most one (C61_integer)."
  },
  {
   "property": "C62",
   "status": "partial",
   "theorems": [
    "C62_roundtrip",
    "C62_rows_are_fibres",
    "C62_rowwise",
    "C62_accepts",
    "C62_all_axes_refuted"
   ],
   "note": "Proved for every proper subset of axes and every order in which the axis set is iterated; flattening over all axes raises TypeError because the product over the empty axis list is a float (C62_all_axes_refuted)."
  },
  {
   "property": "C63",
   "status": "proved",
   "theorems": [
    "C63_timers_balanced"
   ],
   "note": "All timers of a solver are balanced and stopped after every return of solve."
  },
  {
   "property": "C64",
   "status": "partial",
   "theorems": [
    "C64_minimises",
    "C64_agrees_with_real",
    "C64_zero_refuted"
   ],
   "note": "Proved at every non-zero entry with uniqueness of the minimiser; zero entries give 0/0 (C64_zero_refuted)."
  },
  {
   "property": "C65",
   "status": "partial",
   "theorems": [
    "C65_changes",
    "C65_initial",
    "C65_unchanged_iff",
    "C65_frame",
    "C65_no_leak",
    "C65_refuted"
   ],
   "note": "Refuted: constructing a dictionary learning object overwrites the initial-value entries (X0, or Y0 and U0) of the nested dictionary update options of the caller's object, also when construction fails later. Exact characterisation proved: these entries and nothing else change, the object is unchanged iff it already held them, unchanged on a method mismatch, and nothing leaks into a second construction. Which value each class writes is stated entry by entry (C65_initial)."
  },
  {
   "property": "C66",
   "status": "partial",
   "theorems": [
    "C66_l1_weight",
    "C66_l1_weight_signals_refuted",
    "C66_l1_weight_channels_refuted",
    "C66_l1_weight_compatible",
    "C66_l1_weight_axes_refuted",
    "C66_mask"
   ],
   "note": "Masks: proved (C66_mask). l1 weights: the internal shape is characterised exactly (C66_l1_weight) and is compatible if S has a channel axis or no further axis (C66_l1_weight_compatible); false if S has only a signal axis, for a dictionary with channels, and for other numbers of axes (three refuted theorems)."
  },
  {
   "property": "C67",
   "status": "partial",
   "theorems": [
    "C67_bpdn",
    "C67_spline",
    "C67_projl1",
    "C67_tv",
    "C67_maskdcpl",
    "C67_cmod",
    "C67_l1weight_refuted",
    "C67_joint_refuted",
    "C67_rpca_refuted",
    "C67_minl1_refuted",
    "C67_cminl1_refuted",
    "C67_tv_weight_refuted"
   ],
   "note": "Holds for BPDN/ElasticNet with unit weights (C67_bpdn), SplineL1, ProjL1, TVL2 with unit weight, mask decoupling with unit weights, CnstrMOD (as fixed point of the y step). Refuted: L1Weight other than 1, BPDNJoint, RobustPCA (wrong sign, for every nonzero Y0), MinL1InL2Ball, ConvMinL1InL2Ball (blocks exchanged), TVWeight other than 1."
  },
  {
   "property": "C70",
   "status": "partial",
   "theorems": [
    "C70_iff",
    "C70_weights"
   ],
   "note": "Refuted for weights that differ between filters: the x-step is exact for all dictionaries if and only if the weights are uniform."
  },
  {
   "property": "C69",
   "status": "partial",
   "theorems": [
    "C69_gradient",
    "C69_layout",
    "C69_shared",
    "C69_pairs",
    "C69_shared_refuted",
    "C69_masked_refuted",
    "C69_stale",
    "C69_stale_refuted",
    "C69_stale_error",
    "C69_single_filter_refuted"
   ],
   "note": "Refuted + exact characterisation. Holds when the dictionary has as many channels as the signals (C69_gradient, C69_layout) and for a shared single-channel dictionary without signal axis (C69_shared). Refuted for a shared dictionary with a signal axis (C69_shared_refuted), for the masked solver (C69_masked_refuted), for a later call with one signal (C69_stale_refuted) and for a single filter (C69_single_filter_refuted)."
  },
  {
   "property": "C68",
   "status": "proved",
   "theorems": [
    "C68_reconstruct",
    "C68_fidelity",
    "C68_fidelity_xstep"
   ],
   "note": "C68_reconstruct, C68_fidelity (variable Y) and C68_fidelity_xstep (the stored spectrum Xf, when the option fEvalX is set). Exact arithmetic, real data, filtered axes of positive length."
  },
  {
   "property": "C71",
   "status": "partial",
   "theorems": [
    "C71_xstep",
    "C71_two_block",
    "C71_unique",
    "C71_gradient_axis1_refuted"
   ],
   "note": "C71_xstep, C71_unique and C71_two_block: for ConvBPDN, ConvElasticNet and the two-block classes without exception, for ConvBPDNGradReg when every filtered axis has length at least 2. Refuted for ConvBPDNGradReg with an axis of length 1 (C71_gradient_axis1_refuted): the gradient filter is cropped to 1 and the value itself is penalised."
  },
  {
   "property": "C72",
   "status": "proved",
   "theorems": [
    "C72_stationary",
    "C72_convergence",
    "C72_returned",
    "C72_slices"
   ],
   "note": "Fixed penalty parameter, exact arithmetic, one slice of the coefficient array (C72_slices: the steps treat slices independently). C72_stationary, C72_convergence, C72_returned. The hypotheses are the sizes being positive, rho > 0, lmbda and weights non-negative, and for the gradient term axes of length at least 2 (see C71)."
  },
  {
   "property": "C73",
   "status": "partial",
   "theorems": [
    "C73_mask_stationary",
    "C73_mask_convergence",
    "C73_ball_stationary",
    "C73_ball_convergence",
    "C73_ball_joint_refuted"
   ],
   "note": "Mask problem proved in full (stationary iterates, residual and objective of the returned coefficients from any start). Ball problem: proved with one constraint per channel of the signal; convergence given a Lagrange multiplier of the problem, which exists under Slater's condition (C74_ball); refuted for the documented constraint on the whole residual when the dictionary has several channels (C73_ball_joint_refuted)."
  },
  {
   "property": "C74",
   "status": "proved",
   "theorems": [
    "C74_bpdn_exists",
    "C74_bpdn",
    "C74_enet",
    "C74_joint_exists",
    "C74_joint",
    "C74_projl1",
    "C74_minl1",
    "C74_csc_exists",
    "C74_csc",
    "C74_mask_exists",
    "C74_mask",
    "C74_ball_exists",
    "C74_ball"
   ],
   "note": "Exact arithmetic, fixed penalty parameter. Convergence theorems assume that a minimiser exists (needed: with zero weights and a rank-deficient dictionary the minimum is still attained but this is not proved) and the _exists theorems give it under the stated positivity conditions; C74_projl1, C74_minl1 and C74_ball need no such assumption (Slater point for the two ball classes). One ball per column / per channel of the signal, as the code does (C73_ball_joint_refuted for the documented joint constraint with several channels). ConvBPDNJoint is not covered."
  },
  {
   "property": "C75",
   "status": "partial",
   "theorems": [
    "C75_gradient_filters",
    "C75_axes_refuted",
    "C75_A",
    "C75_denominator",
    "C75_tvl2_stationary",
    "C75_tvl2_limit",
    "C75_tvl1_stationary",
    "C75_tvl1_limit",
    "C75_exists",
    "C75_caxis_weights"
   ],
   "note": "Optimality, existence and convergence are proved for axes which are the leading ones in some order and a blur with non-zero sum. Refuted: gradient_filters indexes the components by the axis number, so that other axes (e.g. (1, 2)) raise IndexError (C75_axes_refuted, exact condition C75_gradient_filters); with a blur of sum zero the x step divides by zero at frequency zero (C75_denominator, exact); with caxis and a weight array the reported regularisation term is wrong or raises ValueError except for a single pixel (C75_caxis_weights). Complex data are not modelled."
  },
  {
   "property": "C76",
   "status": "partial",
   "theorems": [
    "C76_A",
    "C76_Xf",
    "C76_vector_stationary",
    "C76_vector_limit",
    "C76_scalar_stationary",
    "C76_scalar_limit",
    "C76_exists",
    "C76_scalar_refuted",
    "C76_reported_l1"
   ],
   "note": "Proved for ConvBPDNVectorTV (single-channel dictionaries: equal TV weights, since otherwise the x step is inexact, see C70). Refuted for ConvBPDNScalarTV: ystep (319) calls prox_l2 without axis, so that the iteration converges to a minimiser of the problem with the l2 norm of the whole array of differences (C76_scalar_limit, exact), which is not a minimiser of the documented one (C76_scalar_refuted). The reported l1 term with weights for each filter is wrong unless there is a single filter (C76_reported_l1, exact). ConvBPDNRecTV is not modelled."
  },
  {
   "property": "C77",
   "status": "partial",
   "theorems": [
    "C77_cauchy_defined",
    "C77_cauchy_exact",
    "C77_cauchy_range",
    "C77_weighted_exact",
    "C77_bb_range",
    "C77_weighted_refuted",
    "C77_bb_refuted",
    "C77_zero_signal"
   ],
   "note": "Proved for the Cauchy policy with BPDN: where the gradient is not zero L is positive, the step is an exact line search and L is at most the Lipschitz constant; for Barzilai-Borwein L is in the range of the curvature when there is no extrapolation. Refuted: WeightedBPDN (and likewise ConvBPDNMask and the weighted dictionary updates) inherits the unweighted Hessian, its step is exact only if the weights leave the curvature along the gradient unchanged (C77_weighted_exact) and runs diverge (C77_weighted_refuted, for every weight >= 3); with momentum the Barzilai-Borwein quotient mixes differences of X with gradients at Y and leaves the range (C77_bb_refuted); both policies are 0/0 at a point with zero gradient (C77_cauchy_defined, C77_zero_signal)."
  },
  {
   "property": "C78",
   "status": "partial",
   "theorems": [
    "C78_converges",
    "C78_applied",
    "C78_full",
    "C78_uncovered",
    "C78_shared_mask_refuted"
   ],
   "note": "C78_converges: the first M maps converge to a minimiser of the masked problem with the mask that the code applies. C78_full: when W has the full shape of the impulse maps this is the intended mask. C78_applied: exact description, the applied mask is the intended one where the coordinate is zero on each axis along which W has size one, and is zero (sample ignored) elsewhere. C78_uncovered: for a mask shared between channels or signals the coefficients of every channel and signal but the first converge to zero, whatever the data (np.where indexes with positions of W itself). C78_shared_mask_refuted: witness. The statement is therefore false for broadcast masks. Modelled with ConvBPDN as inner class; non-binary weights act as their support."
  },
  {
   "property": "C79",
   "status": "proved",
   "theorems": [
    "C79_stationary",
    "C79_limit",
    "C79_exists"
   ],
   "note": "C79_limit, C79_exists, C79_stationary. The axes of the gradient need at least two samples (the gradient filters are cut to one sample otherwise). One slice (signal) at a time: the solver treats the signals independently."
  },
  {
   "property": "C80",
   "status": "partial",
   "theorems": [
    "C80_xstep_ism",
    "C80_xstep_cns",
    "C80_dual_ism",
    "C80_dual_cns",
    "C80_ism",
    "C80_cns",
    "C80_pgm",
    "C80_curvature",
    "C80_pgm_descent",
    "C80_minimiser",
    "C80_optimal",
    "C80_stationary_refuted"
   ],
   "note": "Refuted in one part: a stationary dictionary need not be a solution, because the unit norm constraint is not convex (C80_stationary_refuted: one sample, z = s = 1, the filter -1 is stationary for every parameter above 2, the solution is the filter 1).  Everything else is proved: the x-steps (C80_xstep_ism, C80_xstep_cns), the stationary dictionaries of IterSM with penalty rho, of Consensus with penalty rho / K and of the proximal gradient solver with L = rho are exactly the dictionaries satisfying the first order condition with multipliers below rho (C80_ism, C80_cns, C80_pgm), descent of the proximal gradient step (C80_pgm_descent with C80_curvature), solutions are stationary (C80_minimiser), and stationary dictionaries with non-positive multipliers are solutions (C80_optimal).  The conjugate gradient variant and LinSolveCheck are not modelled."
  },
  {
   "property": "C81",
   "status": "partial",
   "theorems": [
    "C81_view",
    "C81_A",
    "C81_Xf",
    "C81_stationary",
    "C81_limit",
    "C81_exists",
    "C81_copy",
    "C81_copy_stationary",
    "C81_copy_limit",
    "C81_copy_refuted",
    "C81_dual_refuted"
   ],
   "note": "Refuted + exact characterisation. Proved in full (stationary states, convergence of the iterates, existence of minimisers) whenever the assignment to block_sep1(Y) in ystep changes Y; for dictionaries with Cd > 1 channels this is the case exactly if there is one signal or Cd signals (C81_view), always for Cd = 1. Otherwise the assignment goes to a copy: Y1 keeps its initial value, mu has no effect (C81_copy) and the solver enforces a constant reconstruction (C81_copy_stationary, C81_copy_limit, C81_copy_refuted). C81_dual_refuted: cnst_AT does not sum over the channels, so that the reported dual residual is not that of the problem."
  },
  {
   "property": "C82",
   "status": "proved",
   "theorems": [
    "C82_mask",
    "C82_xstep",
    "C82_dfid",
    "C82_residual",
    "C82_ism",
    "C82_fixed_residual",
    "C82_xstep_cns",
    "C82_residual_cns",
    "C82_cns",
    "C82_fixed_residual_cns",
    "C82_minimiser",
    "C82_stationary_refuted"
   ],
   "note": "IterSM and Consensus (CG solves the same system iteratively and is not modelled). Stationary dictionaries are exactly those with the first order condition with multipliers below rho (C82_ism), below K rho for the consensus solver (C82_cns). Zero residuals imply that condition (C82_residual, C82_residual_cns) and conversely (C82_fixed_residual, C82_fixed_residual_cns). Solutions are stationary once the parameter is large enough (C82_minimiser); a stationary dictionary need not be a solution because the constraint set is not convex (C82_stationary_refuted), which the statement does not claim."
  },
  {
   "property": "C83",
   "status": "proved",
   "theorems": [
    "C83_gradient",
    "C83_gradient_mask",
    "C83_value",
    "C83_value_mask",
    "C83_hessian",
    "C83_reconstruct",
    "C83_gain",
    "C83_gain_one",
    "C83_rate",
    "C83_fixed",
    "C83_mask_rate",
    "C83_mask_fixed",
    "C83_mono_rate"
   ],
   "note": "for a fixed step parameter and real data; the line searches on the half spectrum are refuted in C40, and the attribute X with the monotone option in C39. C83_mono_rate is the bound for Xf"
  },
  {
   "property": "C84",
   "status": "partial",
   "theorems": [
    "C84_init",
    "C84_setdict_D",
    "C84_xstep",
    "C84_reconstruct",
    "C84_fidelity",
    "C84_stationary",
    "C84_convergence",
    "C84_iterates",
    "C84_exists",
    "C84_joint_stationary",
    "C84_joint_iterates",
    "C84_joint_exists",
    "C84_setdict_B_refuted"
   ],
   "note": "The x step, the iteration of both classes, reconstruct, the data fidelity, the construction and setdict(D=...) are proved; the statement that setdict(B=...) updates the object is refuted (C84_setdict_B_refuted). eigh enters through its contract (Q orthogonal, B^T B = Q diag(G) Q^T), which every theorem takes as a hypothesis."
  },
  {
   "property": "C85",
   "status": "partial",
   "theorems": [
    "C85_stationary",
    "C85_limit",
    "C85_exists",
    "C85_dual_positive",
    "C85_joint_stationary",
    "C85_joint_limit",
    "C85_joint_exists",
    "C85_dual_refuted"
   ],
   "note": "Refuted as far as the dual residual is concerned, with the exact limit.  C85_stationary, C85_limit, C85_exists and the joint versions prove the rest.  C85_limit also gives the limits of both residuals: the product of the reported one (line 571, rho A^T U) with any d tends to R(p) + R(d) - R(p + d), R being the mu term, and that of the one inherited from ConvL1L1Grd to zero.  C85_dual_positive: whenever R does not vanish at the minimisers the norm of the reported residual is bounded below from some iteration on, so the stopping test is not met for small tolerances.  C85_dual_refuted gives a concrete signal for which this happens for every rho, relaxation parameter and starting state.  A comment in the source (564) says that it is not clear which of the two definitions is better.  Not modelled: HighMemSolve, automatic rho, NonNegCoef, NoBndryCross.  Read but not stated: options Y0 and U0 are ignored (400-402), Nc counts Cb for block 0, and the joint class fails with opt=None (677)."
  },
  {
   "property": "C86",
   "status": "partial",
   "theorems": [
    "C86_limit",
    "C86_stationary",
    "C86_fixed",
    "C86_prox_firm",
    "C86_prox_min",
    "C86_pgm_same",
    "C86_pgm_residual",
    "C86_consensus_limit",
    "C86_consensus_min",
    "C86_rho_refuted",
    "C86_monotone_refuted"
   ],
   "note": "Proved: C86_limit, C86_stationary, C86_fixed, C86_prox_firm, C86_prox_min, C86_pgm_same, C86_pgm_residual, C86_consensus_limit, C86_consensus_min.  Refuted: C86_rho_refuted (a denoiser that ignores its second argument; the equilibrium is 1/(1+rho), for every rho) and C86_monotone_refuted (Monotone compares f alone, the only objective component these classes report, and the value at X0 stays the reference, so a run started at the minimiser of f returns the first iterate for ever).  Not proved: convergence of the proximal gradient version with momentum.  The penalty parameter is fixed; backtracking needs obfn_f, which these classes do not define."
  },
  {
   "property": "C87",
   "status": "proved",
   "theorems": [
    "C87_roundtrip",
    "C87_operator",
    "C87_linsolve",
    "C87_xstep",
    "C87_ystep",
    "C87_stationary",
    "C87_limit",
    "C87_exists",
    "C87_objective"
   ],
   "note": "Exact arithmetic, fixed penalty parameter (AutoRho is enabled by default in this class; its effect is the subject of C34). scipy.fftpack.dct/idct are modelled by their documented sums. Existence of a solution is proved for positive weights."
  },
  {
   "property": "C88",
   "status": "proved",
   "theorems": [
    "C88_exists",
    "C88_limit",
    "C88_large",
    "C88_small",
    "C88_default_column"
   ],
   "note": "Exact arithmetic, fixed penalty parameter; numpy.linalg.svd by its contract (orthonormal factors, non-negative values, product equal to the argument). Initialisation with a given Y0 is the subject of C67 (wrong sign for this class); the limit theorem holds for any initial state."
  },
  {
   "property": "C89",
   "status": "proved",
   "theorems": [
    "C89_exists_l2",
    "C89_exists_l1",
    "C89_unique_l2",
    "C89_limit_l2",
    "C89_limit_l1",
    "C89_one_sweep_refuted"
   ],
   "note": "Fixed rho (AutoRho off), exact arithmetic, axes = (0, ..., K-1): by C26 cnst_AT is the adjoint of cnst_A only then. The refutation for MaxGSIter = 1 is part of the statement (C89_one_sweep_refuted: S = (2, -2), lmbda = 5.45, all else default). GSTol > 0 is not covered. The per-pixel TV weight w has no channel axis (for weights with caxis see C75)."
  },
  {
   "property": "C90",
   "status": "partial",
   "theorems": [
    "C90_windows",
    "C90_weights",
    "C90_nonneg",
    "C90_plain",
    "C90_stationary",
    "C90_fixed",
    "C90_limit",
    "C90_first_order",
    "C90_functional_refuted",
    "C90_groups_refuted"
   ],
   "note": "Partial because the documented functional is refuted (C90_functional_refuted: a stationary state of the solver that is not first order stationary for the documented functional) and replaced by an exact characterisation (C90_stationary, C90_fixed, C90_limit: equilibrium of the reweighted problem; C90_first_order: stationary for the functional with half of the inhibition, for palindromic windows). C90_groups_refuted: fractional memberships give negative weights. Convergence itself is a hypothesis of C90_limit (the problem is not convex). C90_windows: failure exactly if the odd window length exceeds the signal. The documentation writes |x * h|, the code computes h * |x|, which is what is proved. The window is an arbitrary non-negative function; scipy's get_window returns by default a periodic window, which is not a palindrome for odd lengths (C90_one_sided)."
  },
  {
   "property": "C91",
   "status": "partial",
   "theorems": [
    "C91_pcn",
    "C91_cnstr",
    "C91_objective",
    "C91_pgm_stationary",
    "C91_pgm_limit",
    "C91_descent",
    "C91_curvature",
    "C91_minimiser",
    "C91_solution",
    "C91_optimal",
    "C91_xstep",
    "C91_admm_stationary",
    "C91_admm_limit",
    "C91_unused_refuted",
    "C91_hessian",
    "C91_weighted_hessian_refuted",
    "C91_stationary_refuted"
   ],
   "note": "Partial because of the refuted parts: unused atoms stay zero and infeasible while Cnstr reports no violation (C91_unused_refuted, C91_cnstr exact); a stationary dictionary need not be a solution (C91_stationary_refuted); hessian_f of WeightedCnstrMOD is the one without weights (C91_weighted_hessian_refuted). Everything else is proved: C91_pcn, C91_xstep, C91_admm_stationary, C91_pgm_stationary, C91_admm_limit, C91_pgm_limit, C91_descent, C91_curvature, C91_solution, C91_minimiser (the case NonNegCoef needs that the step from the solution has no zero column), C91_optimal. The linear solver is an argument satisfying the equation proved in C23. Convergence itself is a hypothesis in the limit theorems. Read but not stated: reconstruct of pgm/cmod.py (232) uses an attribute D which is never set."
  },
  {
   "property": "C92",
   "status": "partial",
   "theorems": [
    "C92_raises",
    "C92_single_refuted",
    "C92_nkp",
    "C92_kpsvd",
    "C92_pca",
    "C92_pca_best",
    "C92_pca_synthesis",
    "C92_pca_synthesis_refuted",
    "C92_circulant",
    "C92_circulant_raises",
    "C92_circulant_type_refuted",
    "C92_circulant_shape_refuted"
   ],
   "note": "Partial because of the refuted parts: nkp and kpsvd raise for a first factor with a single row or column, a request with a solution, since subsample_array needs a step smaller than the axis (C92_single_refuted, exact condition C92_raises); with fewer observations than variables synthesis after analysis is not the identity (C92_pca_synthesis_refuted, otherwise C92_pca_synthesis); block_circulant converts later blocks to the type of the first and repeats single rows or columns without an exception (C92_circulant_type_refuted, C92_circulant_shape_refuted). Everything else is proved: C92_nkp, C92_kpsvd (full Eckart-Young theorem by Gram-Schmidt), C92_pca, C92_pca_best, C92_circulant, C92_circulant_raises. The decomposition itself is an argument."
  },
  {
   "property": "C93",
   "status": "partial",
   "theorems": [
    "C93_caller_arrays",
    "C93_results_stable",
    "C93_results_stable_after_one",
    "C93_uinit_alias_refuted",
    "C93_results_overwritten_refuted",
    "C93_dictlearn_refuted",
    "C93_previous_iterate",
    "C93_unrelaxed_product",
    "C93_runs",
    "C93_tv_returns_argument"
   ],
   "note": "Refuted for the listed classes and characterised exactly: C93_results_overwritten_refuted (from every reachable state an iteration exists that changes the array handed out), C93_dictlearn_refuted, C93_uinit_alias_refuted (with option Y0 the dual variable of the ADMM dictionary updates is the same array as Y until the first iteration). Array contents are abstracted; object identity, rebinding and in-place writes are modelled."
  },
  {
   "property": "C94",
   "status": "partial",
   "theorems": [
    "C94_rate",
    "C94_fit_after_one",
    "C94_rate_unrelaxed",
    "C94_test",
    "C94_iterations",
    "C94_quality",
    "C94_bpdn",
    "C94_relative_only_refuted"
   ],
   "note": "The English claim holds for AbsStopTol > 0 (C94_rate, C94_rate_unrelaxed, C94_fit_after_one, C94_test, C94_iterations, C94_bpdn, C94_quality); for AbsStopTol = 0, the default, it is refuted (C94_relative_only_refuted, in exact arithmetic). AutoRho has to be disabled, no callback, FastSolve off. MultiDict and consensus classes are not instantiated; BPDN is."
  },
  {
   "property": "C95",
   "status": "proved",
   "theorems": [
    "C95_limit",
    "C95_one_call",
    "C95_objective",
    "C95_groups",
    "C95_exists"
   ],
   "note": "Exact arithmetic; the linear system of a group is assumed solved exactly (C21 for the solver). The hypothesis on iteration 256 is the defect of C47; multi-channel dictionaries are excluded by the defect of C46 (axis=mp_C). Built on the memory model and schedules of C45-C48."
  },
  {
   "property": "C96",
   "status": "partial",
   "theorems": [
    "C96_argument",
    "C96_default",
    "C96_two_block",
    "C96_default_refuted",
    "C96_dictionary_default",
    "C96_dictionary",
    "C96_dictionary_raises",
    "C96_dictionary_refuted",
    "C96_dictlrn",
    "C96_bpdn",
    "C96_bpdn_refuted",
    "C96_raises_refuted"
   ],
   "note": "Refuted in full generality, with the exact characterisation. Holds for coefficients passed to every sparse coding class (C96_argument), for the default of the PGM class and of the ADMM classes unless ReturnX is set (C96_default), and for dictionary learning with cropped or full dictionaries (C96_dictlrn). The two block classes use the spectrum of X and not the variable returned by solve; the difference is at most the largest entry of X - Y1 times the filter mass (C96_two_block), and is not zero (C96_default_refuted); before the first iteration the result is whatever the allocated array holds. The dictionary update classes transform the dictionary passed on its own shape: correct when each axis has the size of the signal or one (C96_dictionary), ValueError exactly when some 1 < Nd < N (Nd//2 < N//2 on the last axis; C96_dictionary_raises), so for the cropped dictionary that getdict returns; a wrong signal for N = 2k+1, Nd = 2k on the last axis (C96_dictionary_refuted). pgm BPDN ignores its argument; pgm CnstrMOD and MultiDictConvBPDN always raise. Complex data and the consensus variants of the default, with one dictionary copy for each block, are not modelled."
  },
  {
   "property": "C97",
   "status": "partial",
   "theorems": [
    "C97_operator",
    "C97_solution",
    "C97_accuracy",
    "C97_stationary",
    "C97_stationary_refuted",
    "C97_frequency_refuted",
    "C97_contract",
    "C97_count",
    "C97_count_refuted"
   ],
   "note": "Refuted in full generality, with the exact characterisation. The operator is linear, self-adjoint and positive definite as cg requires (C97_operator), the systems have exactly one solution, that of solvemdbi_ism (C97_solution), and a result reported as successful is within tol ||b|| / rho of it in norm and in every entry (C97_accuracy). The tolerance is for all frequencies together, a single system can be left unsolved (C97_frequency_refuted). The second result is not the number of iterations but 0 on success and the iteration limit otherwise (C97_count, C97_count_refuted). The x step returns the previous spectrum whenever it meets the tolerance, so a stationary iterate satisfies the optimality condition up to tol ||b|| (C97_stationary) and not exactly (C97_stationary_refuted). scipy's cg is external: the theorems quantify over all functions with the contract cg_contract, which the algorithm of scipy meets in exact arithmetic (C97_contract). The transform back to the spatial domain is that of C80."
  },
  {
   "property": "C98",
   "status": "partial",
   "theorems": [
    "C98_default",
    "C98_start",
    "C98_value_ignored",
    "C98_fresh_refuted",
    "C98_stale_refuted"
   ],
   "note": "Refuted in full generality, with the exact characterisation. Without the options every solve starts from zero after any history (C98_default). An option that is set is stored under the wrong global name (line 650 sets Y0 and not mp_Y0, and so on), so its value never matters (C98_value_ignored): solve raises TypeError when no earlier object was constructed without the option (C98_fresh_refuted), and otherwise starts from what the earlier objects left in the shared array (C98_start gives it for every history; C98_stale_refuted a case without an error). Not modelled: arrays left behind with another shape, and restarting an object while another one was constructed in between (C48)."
  },
  {
   "property": "C99",
   "status": "partial",
   "theorems": [
    "C99_mask",
    "C99_mask_fraction",
    "C99_mask_values_refuted",
    "C99_mask_types_refuted",
    "C99_noise",
    "C99_noise_fraction",
    "C99_noise_types_refuted",
    "C99_gray",
    "C99_gray_refuted"
   ],
   "note": "Proved for real types, except that a draw with |u| = frc is kept as the value of the mask (C99_mask, C99_mask_values_refuted). Refuted for other types: an integer mask is all zero and a bool mask all one for every frc (C99_mask_types_refuted), noise values are truncated in an integer image (C99_noise_types_refuted) and every integer image becomes black (C99_gray_refuted), because the weights are converted to the type of the image. Integer wrap-around and rounding are not modelled."
  },
  {
   "property": "C100",
   "status": "partial",
   "theorems": [
    "C100_pamse_bound",
    "C100_pamse_constant",
    "C100_pamse_symmetric",
    "C100_pamse_symmetric_refuted",
    "C100_gmsd_range",
    "C100_gmsd_identical",
    "C100_gmsd_invariant",
    "C100_gmsd_symmetric",
    "C100_gmsd_zero_refuted",
    "C100_gmsd_symmetric_refuted"
   ],
   "note": "Proved except for two refuted parts. Symmetry holds without rescaling (C100_pamse_symmetric, C100_gmsd_symmetric) and fails with it, which is the default, because only the maximum of vref is used (C100_pamse_symmetric_refuted; C100_gmsd_symmetric_refuted for the quality map). A gmsd score of 0 does not mean that the images are similar: the standard deviation of a constant map is 0, and a step compared with a black image has score 0 at quality below 1/100 (C100_gmsd_zero_refuted). Integer images and rounding are not modelled."
  },
  {
   "property": "C101",
   "status": "partial",
   "theorems": [
    "C101_rrs_range",
    "C101_rrs_relative",
    "C101_adjoint_exact",
    "C101_adjoint_accepted",
    "C101_adjoint_zero_refuted",
    "C101_adjoint_tolerance_refuted",
    "C101_adjoint_complex_refuted"
   ],
   "note": "rrs proved (C101_rrs_range, C101_rrs_relative). For valid_adjoint, refuted in full generality with the exact characterisation: the error is 0 (or 0/0) for every draw exactly when AT is the transpose, not the conjugate transpose, of A (C101_adjoint_exact), and transposes are accepted for exactly the draws with x1 . A x0 nonzero (C101_adjoint_accepted). So the zero operator is rejected for every draw (C101_adjoint_zero_refuted), the adjoint of a complex operator can be rejected for every draw and its transpose accepted (C101_adjoint_complex_refuted), and a factor within the tolerance is accepted (C101_adjoint_tolerance_refuted). Rounding is not modelled, nor that the exceptional draws have probability zero for a nonzero operator."
  },
  {
   "property": "C102",
   "status": "partial",
   "theorems": [
    "C102_inner",
    "C102_inner_dimensions_refuted",
    "C102_inner_raises_refuted",
    "C102_inner_range_refuted",
    "C102_dot",
    "C102_dot_sizes_refuted"
   ],
   "note": "inner proved for two arrays with the same number of dimensions and an axis in range, exceptions included (C102_inner). Refuted otherwise: a negative axis is counted from the end of x in both arrays, so another axis of y is summed (C102_inner_dimensions_refuted) or an exception is raised although the product exists (C102_inner_raises_refuted), and an axis out of range is taken for another one (C102_inner_range_refuted). dot proved for matching sizes (C102_dot); sizes of one that do not match are broadcast and not rejected (C102_dot_sizes_refuted). numpy's broadcasting, moveaxis and einsum are modelled, and the specification uses the same rule of broadcasting."
  },
  {
   "property": "C103",
   "status": "partial",
   "theorems": [
    "C103_zpad",
    "C103_zpad_raises",
    "C103_zdivide",
    "C103_zdivide_refuted",
    "C103_atleast_nd",
    "C103_split",
    "C103_split_refuted"
   ],
   "note": "Proved for zpad with 0 <= ax < ndim (C103_zpad; every other ax raises, C103_zpad_raises, so negative axes are not supported), atleast_nd (C103_atleast_nd), zdivide for a real or complex numerator of the full shape (C103_zdivide) and split for an axis in range (C103_split). Refuted: zdivide raises for integer numerators and for numerators that would have to be broadcast (C103_zdivide_refuted); split takes some axes out of range for another axis (C103_split_refuted). promote16 is not modelled."
  },
  {
   "property": "C104",
   "status": "partial",
   "theorems": [
    "C104_raises_refuted",
    "C104_samples",
    "C104_border",
    "C104_green",
    "C104_midpoint",
    "C104_bilinear_refuted"
   ],
   "note": "Proved: the measured values are kept and there is no NaN (C104_samples), red and blue are continued as constants at the border (C104_border), a missing green value is the mean of two green neighbours, opposite ones except at the corners (C104_green; which pair is up to the triangulation, it is never the mean of all four). Refuted: red and blue are interpolated by cubic splines, because RectBivariateSpline is called with its default degrees (C104_midpoint gives the weights -1, 9, 9, -1 over 16), so that an image with values in [0, 1] gets negative values (C104_bilinear_refuted); images with fewer than 8 rows or columns raise (C104_raises_refuted). The spline routine is a parameter with the hypothesis that it returns the not-a-knot interpolating spline, and linear griddata is modelled by its values on this grid."
  },
  {
   "property": "C105",
   "status": "partial",
   "theorems": [
    "C105_promote",
    "C105_apply",
    "C105_float",
    "C105_integer",
    "C105_integer_refuted"
   ],
   "note": "True for floating point types (C105_promote, C105_apply, C105_float) and for norm_nuclear with every type. Refuted for prox_nuclear of integer matrices (C105_integer_refuted): promote16 converts the results to the type of u for every type, not only float16, so the singular vectors are truncated and the result is the zero matrix unless a singular vector is a coordinate vector (C105_integer). Rounding to float16 is not modelled."
  }
 ]
}