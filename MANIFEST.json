{
 "claims": [
  {
   "property": "C01",
   "status": "proved",
   "theorems": [
    "C01_linf_prox_is_projection"
   ],
   "note": "LinfBall.prox over exact reals."
  },
  {
   "property": "C02",
   "status": "proved",
   "theorems": [
    "C02_l2_prox_is_projection"
   ],
   "note": "L2Ball.prox over exact reals."
  },
  {
   "property": "C03",
   "status": "proved",
   "theorems": [
    "C03_proj_simplex_is_projection",
    "C03_proj_simplex_rejects"
   ],
   "note": "Projection over exact reals; rejection of s<=0 in every arithmetic."
  },
  {
   "property": "C04",
   "status": "proved",
   "theorems": [
    "C04_l1ball_prox_is_projection",
    "C04_l1ball_prox_rejects"
   ],
   "note": "Projection over exact reals; rejection of s<=0 in every arithmetic."
  },
  {
   "property": "C05",
   "status": "proved",
   "theorems": [
    "C05_l1_lmo",
    "C05_l1_lmo_empty"
   ],
   "note": ""
  },
  {
   "property": "C06",
   "status": "proved",
   "theorems": [
    "C06_l1_lmo_pairwise",
    "C06_l1_lmo_pairwise_empty"
   ],
   "note": ""
  },
  {
   "property": "C07",
   "status": "partial",
   "theorems": [
    "C07_simplex_lmo_partial",
    "C07_simplex_lmo_refuted"
   ],
   "note": "REFUTED as stated: when every coordinate of u is negative the vertex returned is -s*e_i, outside the set. Proved when some coordinate is >= 0."
  },
  {
   "property": "C08",
   "status": "partial",
   "theorems": [
    "C08_call",
    "C08_contracts",
    "C08_lmo_partial",
    "C08_lmo_refuted",
    "C08_prox",
    "C08_prox_errors",
    "C08_prox_inside"
   ],
   "note": "REFUTED for lmo on matrices with a single row or column: scipy svds with k=1 raises ValueError. Proved: prox is the projection for every valid SVD, lmo for every leading pair when both sides are >= 2, __call__ is membership up to float32 eps."
  },
  {
   "property": "C09",
   "status": "proved",
   "theorems": [
    "C09_l1norm_call",
    "C09_l1norm_prox"
   ],
   "note": "Exact reals (np.fmax hides NaN in IEEE arithmetic)."
  },
  {
   "property": "C10",
   "status": "partial",
   "theorems": [
    "C10_accepted_groups",
    "C10_group_prox_partial",
    "C10_group_prox_refuted"
   ],
   "note": "Constructor part proved for all integer lists. Prox part proved for non-empty groups with indices in [0,n); REFUTED for accepted groups with negative indices (wrap-around makes groups overlap)."
  },
  {
   "property": "C11",
   "status": "proved",
   "theorems": [
    "C11_group_blocks",
    "C11_group_sparse_all",
    "C11_group_sparse_prox"
   ],
   "note": "For accepted non-empty groups with indices in [0,n)."
  },
  {
   "property": "C12",
   "status": "proved",
   "theorems": [
    "C12_l1_sparse_is_prox",
    "C12_l1_sparse_prox"
   ],
   "note": "Values in every arithmetic; prox characterisation over exact reals."
  },
  {
   "property": "C13",
   "status": "proved",
   "theorems": [
    "C13_fused_sparse_prox",
    "C13_fused_split"
   ],
   "note": ""
  },
  {
   "property": "C14",
   "status": "proved",
   "theorems": [
    "C14_fused_prox",
    "C14_prox_tv1d"
   ],
   "note": "Exact reals; every non-empty input, every step >= 0."
  },
  {
   "property": "C15",
   "status": "proved",
   "theorems": [
    "C15_degenerate",
    "C15_tv1d_total",
    "C15_tv2d_total"
   ],
   "note": "Every arithmetic; also the 2-D routine and the inputs on which it raises."
  },
  {
   "property": "C16",
   "status": "proved",
   "theorems": [
    "C16_penalty_prox",
    "C16_prox_tv2d"
   ],
   "note": "Exact reals; c = 4 step n_rows n_cols."
  },
  {
   "property": "C17",
   "status": "proved",
   "theorems": [
    "C17_operator",
    "C17_penalty"
   ],
   "note": "Exact reals."
  },
  {
   "property": "C18",
   "status": "proved",
   "theorems": [
    "C18_call",
    "C18_nuc_exists",
    "C18_prox",
    "C18_shape"
   ],
   "note": "Exact reals; every valid SVD; the nuclear norm is the dual of the operator norm and shown to exist."
  },
  {
   "property": "C19",
   "status": "proved",
   "theorems": [
    "C19_intercept",
    "C19_value"
   ],
   "note": "Exact reals; with and without intercept."
  },
  {
   "property": "C20",
   "status": "proved",
   "theorems": [
    "C20_expit",
    "C20_gradient",
    "C20_intercept"
   ],
   "note": "Exact reals; Frechet gradient; with and without intercept."
  },
  {
   "property": "C21",
   "status": "proved",
   "theorems": [
    "C21_shapes",
    "C21_square"
   ],
   "note": "Exact reals; shape errors for every arithmetic."
  },
  {
   "property": "C22",
   "status": "proved",
   "theorems": [
    "C22_huber"
   ],
   "note": "Exact reals; delta > 0."
  },
  {
   "property": "C23",
   "status": "proved",
   "theorems": [
    "C23_huber",
    "C23_log",
    "C23_log_tight",
    "C23_max_log",
    "C23_max_log_tight",
    "C23_max_sq",
    "C23_max_sq_tight",
    "C23_opnorm_exists",
    "C23_sq",
    "C23_sq_tight"
   ],
   "note": "Exact reals; also minimality of the constant for LogLoss and SquareLoss. The largest singular value is a hypothesis on svds."
  },
  {
   "property": "C24",
   "status": "partial",
   "theorems": [
    "C24_hessian_partial",
    "C24_intercept_partial",
    "C24_refuted"
   ],
   "note": "REFUTED for every data set with at least two samples and alpha <> 0 (ridge term divided by n). Proved: exact up to (1-1/n) alpha s, so exact for alpha = 0 or n = 1; intercept mode likewise."
  },
  {
   "property": "C25",
   "status": "proved",
   "theorems": [
    "C25_empty",
    "C25_labels"
   ],
   "note": "Exact reals (over floats a nan label is accepted, example)."
  },
  {
   "property": "C26",
   "status": "proved",
   "theorems": [
    "C26_log",
    "C26_schedules",
    "C26_square"
   ],
   "note": "Schedules in every arithmetic, gradient over exact reals."
  },
  {
   "property": "C27",
   "status": "partial",
   "theorems": [
    "C27_finite_difference_refuted",
    "C27_jac_partial"
   ],
   "note": "Callable jac and jac=True proved; REFUTED for jac=False/None/\"2-point\", whose finite-difference branch is never reached."
  },
  {
   "property": "C28",
   "status": "partial",
   "theorems": [
    "C28_sparse_add_matrices",
    "C28_sparse_add_mismatch",
    "C28_sparse_add_partial",
    "C28_sparse_add_refuted"
   ],
   "note": "REFUTED for a sparse column plus a 1-D dense array (n x n outer sum); the other combinations proved."
  },
  {
   "property": "C29",
   "status": "proved",
   "theorems": [
    "C29_sample_batches"
   ],
   "note": "Every order of element writes."
  },
  {
   "property": "C30",
   "status": "proved",
   "theorems": [
    "C30_in_bounds",
    "C30_matvec",
    "C30_vecmat"
   ],
   "note": "Index safety in every arithmetic; products over exact reals."
  },
  {
   "property": "C31",
   "status": "proved",
   "theorems": [
    "C31_trace_by_value",
    "C31_trace_lengths"
   ],
   "note": "Heap model: arrays of the trace are separate cells."
  },
  {
   "property": "C32",
   "status": "proved",
   "theorems": [
    "C32_init_lipschitz_first",
    "C32_init_lipschitz_pos"
   ],
   "note": "First accepted trial in every arithmetic; positivity over the reals."
  },
  {
   "property": "C33",
   "status": "proved",
   "theorems": [
    "C33_success_certificate",
    "C33_trace"
   ],
   "note": "Every arithmetic, every callable."
  },
  {
   "property": "C34",
   "status": "partial",
   "theorems": [
    "C34_max_iter_refuted",
    "C34_no_exception",
    "C34_terminates_partial"
   ],
   "note": "Termination and nit <= max_iter proved. REFUTED as stated: max_iter + 1 iterations are performed (in every run with tol = 0 and no callback)."
  },
  {
   "property": "C35",
   "status": "proved",
   "theorems": [
    "C35_callback_stops"
   ],
   "note": "Plain and accelerated solver, every stateful callback."
  },
  {
   "property": "C36",
   "status": "proved",
   "theorems": [
    "C36_descent"
   ],
   "note": "Exact reals; for runs whose line searches succeed (C37_never_exhausted gives a sufficient condition)."
  },
  {
   "property": "C37",
   "status": "proved",
   "theorems": [
    "C37_linesearch_succeeds",
    "C37_never_exhausted",
    "C37_rate",
    "C37_rate_explicit",
    "C37_smooth_steps"
   ],
   "note": "Exact reals."
  },
  {
   "property": "C38",
   "status": "proved",
   "theorems": [
    "C38_stationarity"
   ],
   "note": "Exact reals."
  },
  {
   "property": "C39",
   "status": "partial",
   "theorems": [
    "C39_accelerated_refuted",
    "C39_backtracking_rejected",
    "C39_step_rejected_partial"
   ],
   "note": "REFUTED for the accelerated solver, which silently returns x0; proved for the plain solver."
  },
  {
   "property": "C40",
   "status": "proved",
   "theorems": [
    "C40_accelerated"
   ],
   "note": ""
  },
  {
   "property": "C41",
   "status": "proved",
   "theorems": [
    "C41_feasible",
    "C41_returns"
   ],
   "note": "Exact reals; also callable steps with values in [0,1]."
  },
  {
   "property": "C42",
   "status": "proved",
   "theorems": [
    "C42_certificate_bound",
    "C42_certificate_bound_pairwise"
   ],
   "note": "Exact reals; vanilla variant with any exact oracle, pairwise variant with L1Ball.lmo_pairwise."
  },
  {
   "property": "C43",
   "status": "proved",
   "theorems": [
    "C43_line_search",
    "C43_line_search_succeeds"
   ],
   "note": "Exact reals."
  },
  {
   "property": "C44",
   "status": "proved",
   "theorems": [
    "C44_descent",
    "C44_descent_pairwise"
   ],
   "note": "Exact reals; vanilla and pairwise."
  },
  {
   "property": "C45",
   "status": "proved",
   "theorems": [
    "C45_decomposition",
    "C45_returns",
    "C45_step_too_large"
   ],
   "note": "Exact reals."
  },
  {
   "property": "C46",
   "status": "partial",
   "theorems": [
    "C46_drop_step_refuted",
    "C46_stall_refuted",
    "C46_weights_partial"
   ],
   "note": "REFUTED: every drop step leaves the away vertex in the active set with weight 0, and a run stalls at a non-optimal point for every max_iter >= 2. The weights themselves are proved right."
  },
  {
   "property": "C47",
   "status": "proved",
   "theorems": [
    "C47_l1_ball",
    "C47_rate_DR",
    "C47_rate_backtracking",
    "C47_rate_sublinear"
   ],
   "note": "Exact reals; sublinear, DR, and backtracking (with an extra k*EPS)."
  },
  {
   "property": "C48",
   "status": "partial",
   "theorems": [
    "C48_arguments",
    "C48_callback",
    "C48_step_checked_partial",
    "C48_step_unchecked_refuted"
   ],
   "note": "REFUTED for step and missing lipschitz when the first certificate is <= tol; the other cases and the callback part are proved."
  },
  {
   "property": "C49",
   "status": "partial",
   "theorems": [
    "C49_certificate_partial",
    "C49_certificate_refuted"
   ],
   "note": "REFUTED when max_iter is reached (certificate of the previous iterate); proved for the other exits."
  },
  {
   "property": "C50",
   "status": "proved",
   "theorems": [
    "C50_gap",
    "C50_success",
    "C50_zero_certificate"
   ],
   "note": "Exact reals. With h_Lipschitz other than None and 0 the positivity of the steps is a hypothesis (it can fail, C81)."
  },
  {
   "property": "C51",
   "status": "proved",
   "theorems": [
    "C51_contract",
    "C51_errors",
    "C51_smooth",
    "C51_steps",
    "C51_trace"
   ],
   "note": "Control flow for every arithmetic, inequalities over exact reals."
  },
  {
   "property": "C52",
   "status": "proved",
   "theorems": [
    "C52_fixed_point",
    "C52_residual"
   ],
   "note": "Exact reals."
  },
  {
   "property": "C53",
   "status": "proved",
   "theorems": [
    "C53_success"
   ],
   "note": "Every arithmetic."
  },
  {
   "property": "C54",
   "status": "partial",
   "theorems": [
    "C54_errors",
    "C54_flag_partial",
    "C54_warning_refuted"
   ],
   "note": "REFUTED: the RuntimeWarning is never issued. success is proved right for both solvers."
  },
  {
   "property": "C55",
   "status": "proved",
   "theorems": [
    "C55_block_map",
    "C55_make_blocks",
    "C55_support_rows"
   ],
   "note": "Every CSR pattern and block map; also the empty matrix, for which the code raises ValueError."
  },
  {
   "property": "C56",
   "status": "proved",
   "theorems": [
    "C56_weights",
    "C56_weights_mean"
   ],
   "note": "Exact reals."
  },
  {
   "property": "C57",
   "status": "proved",
   "theorems": [
    "C57_saga_memory",
    "C57_saga_runs"
   ],
   "note": "Exact reals; every index history, hence every run."
  },
  {
   "property": "C58",
   "status": "partial",
   "theorems": [
    "C58_saga_step_then_prox",
    "C58_saga_unbiased_partial",
    "C58_saga_unbiased_refuted"
   ],
   "note": "REFUTED for rows that store a column twice (direction 2, gradient 4); proved for every canonical CSR matrix and every reachable state."
  },
  {
   "property": "C59",
   "status": "partial",
   "theorems": [
    "C59_factory_local",
    "C59_optimal_refuted",
    "C59_saga_local_partial",
    "C59_svrg_local_partial"
   ],
   "note": "Locality proved in every arithmetic. REFUTED: features stored in no sample are never updated, so with alpha > 0 SAGA and SVRG return success at a non-optimal point."
  },
  {
   "property": "C60",
   "status": "partial",
   "theorems": [
    "C60_svrg_bias_partial",
    "C60_svrg_unbiased_refuted",
    "C60_svrg_unbiased_separable_partial"
   ],
   "note": "REFUTED for blocks larger than one feature: grad_tmp is never cleared. Proved: the exact bias, and unbiasedness for separable penalties."
  },
  {
   "property": "C61",
   "status": "proved",
   "theorems": [
    "C61_vrtos_average",
    "C61_vrtos_memory"
   ],
   "note": "Memory over exact reals, average in every arithmetic."
  },
  {
   "property": "C62",
   "status": "partial",
   "theorems": [
    "C62_vrtos_bounds_refuted",
    "C62_vrtos_safe_partial"
   ],
   "note": "REFUTED: the reweighting vectors are read past their end for every max_iter, tol and permutation. Proved safe when every feature is stored."
  },
  {
   "property": "C63",
   "status": "partial",
   "theorems": [
    "C63_vrtos_certificate_partial",
    "C63_vrtos_never_succeeds_refuted",
    "C63_vrtos_run_refuted"
   ],
   "note": "REFUTED: success is False in every run, x0 is overwritten. Proved: what the certificate is."
  },
  {
   "property": "C64",
   "status": "proved",
   "theorems": [
    "C64_aggregate",
    "C64_dual_last_visit"
   ],
   "note": "Exact reals; every variant, step rule and batch history."
  },
  {
   "property": "C65",
   "status": "partial",
   "theorems": [
    "C65_DR_refuted",
    "C65_feasible_DR_partial",
    "C65_feasible_sublinear_partial",
    "C65_returns"
   ],
   "note": "REFUTED for step_size=\"DR\": SAGA takes negative steps out of the domain, SAG computes 0/0 at a vertex, MHK and LF raise UnboundLocalError. Proved for sublinear steps (all variants; such runs also return) and for SAG with DR while no direction vanishes."
  },
  {
   "property": "C66",
   "status": "partial",
   "theorems": [
    "C66_stopping_partial",
    "C66_stopping_refuted"
   ],
   "note": "REFUTED: the break leaves only the epoch, later epochs move the point and success stays True (binary64 run). Proved in every arithmetic: success iff some step was shorter than tol, it ends its epoch, and in the last epoch it ends the run."
  },
  {
   "property": "C67",
   "status": "proved",
   "theorems": [
    "C67_step_sizes"
   ],
   "note": "Exact reals; x ** (2/3) is Rpower x (2/3)."
  },
  {
   "property": "C68",
   "status": "partial",
   "theorems": [
    "C68_full_batch_estimate",
    "C68_saga_mean",
    "C68_saga_unbiased_partial",
    "C68_saga_unbiased_refuted"
   ],
   "note": "REFUTED for batch_size > 1. Proved: the mean over any balanced family of batches, unbiased for batch_size = 1."
  },
  {
   "property": "C69",
   "status": "proved",
   "theorems": [
    "C69_degenerate",
    "C69_saga_contract",
    "C69_saga_memory",
    "C69_svrg_contract",
    "C69_svrg_memory"
   ],
   "note": "The values over every number type; that the arrays of the caller are not modified, in the heap model of PropsMemory.v."
  },
  {
   "property": "C70",
   "status": "partial",
   "theorems": [
    "C70_first_call",
    "C70_incomplete_refuted",
    "C70_kdd10_recover",
    "C70_named",
    "C70_named_train",
    "C70_recover_partial",
    "C70_retry_refuted",
    "C70_truncated_refuted",
    "C70_url_refuted"
   ],
   "note": "REFUTED: without TensorFlow the retry raises FileExistsError for ever; truncated training files and missing test files are never repaired; load_url trusts a partial download. Proved: a first call is complete and serves all later ones, recovery while a training file is missing (TensorFlow makedirs), recovery of load_kdd10 from every crash."
  },
  {
   "property": "C71",
   "status": "partial",
   "theorems": [
    "C71_criteo_partial",
    "C71_criteo_refuted",
    "C71_kdd10",
    "C71_kdd10_only_genuine",
    "C71_kdd12_labels",
    "C71_kdd12_partial",
    "C71_kdd12_refuted",
    "C71_sources",
    "C71_url",
    "C71_url_labels",
    "C71_url_never",
    "C71_url_only_genuine"
   ],
   "note": "REFUTED: after a failed md5 check load_kdd12 returns the URL dataset; a truncated criteo archive raises and is never replaced. Proved for load_url and load_kdd10 after any number of bad downloads, for load_kdd12 with a good first download, for load_criteo when the bad archives unpack, and the labels."
  },
  {
   "property": "C72",
   "status": "partial",
   "theorems": [
    "C72_full_refuted",
    "C72_other_partial",
    "C72_subset_partial"
   ],
   "note": "REFUTED: full raises ValueError when train and test have different largest columns. Proved: train, test, full with equal widths, ValueError on other names (dataset on disk)."
  },
  {
   "property": "C73",
   "status": "partial",
   "theorems": [
    "C73_fresh_partial",
    "C73_fresh_refuted"
   ],
   "note": "REFUTED after an exhausted line search (stale value and gradient); proved after every successful one."
  },
  {
   "property": "C74",
   "status": "proved",
   "theorems": [
    "C74_fista_constant_step",
    "C74_fista_rate"
   ],
   "note": "Exact reals."
  },
  {
   "property": "C75",
   "status": "partial",
   "theorems": [
    "C75_accelerated_certificate_partial",
    "C75_accelerated_certificate_refuted"
   ],
   "note": "REFUTED by a binary64 run; the bound that does hold has the extra term |last move|/step."
  },
  {
   "property": "C76",
   "status": "partial",
   "theorems": [
    "C76_parse_step_partial",
    "C76_parse_step_refuted"
   ],
   "note": "REFUTED for ints (rejected) and two-letter strings (split); the other cases proved."
  },
  {
   "property": "C77",
   "status": "partial",
   "theorems": [
    "C77_l1_oracle_partial",
    "C77_simplex_lmo_refuted"
   ],
   "note": "REFUTED for SimplexConstraint.lmo (TypeError in every run); proved for L1Ball.lmo."
  },
  {
   "property": "C78",
   "status": "proved",
   "theorems": [
    "C78_fixed_step_converges"
   ],
   "note": "Exact reals (Davis-Yin)."
  },
  {
   "property": "C79",
   "status": "partial",
   "theorems": [
    "C79_accepted_partial",
    "C79_unstable_refuted"
   ],
   "note": "REFUTED: the test compares with |L d|^2 instead of |d|^2; a binary64 run diverges beyond 1e19. Proved: what is accepted, stable if |L|^2 <= 2."
  },
  {
   "property": "C80",
   "status": "proved",
   "theorems": [
    "C80_fixed_step_converges"
   ],
   "note": "Exact reals (Condat-Vu)."
  },
  {
   "property": "C81",
   "status": "partial",
   "theorems": [
    "C81_nan_refuted",
    "C81_update_partial"
   ],
   "note": "REFUTED in binary64: step and x become NaN. Proved when the quadratic bound holds exactly at the accepted point."
  },
  {
   "property": "C82",
   "status": "partial",
   "theorems": [
    "C82_rounds_refuted",
    "C82_terminates_partial",
    "C82_unbounded_refuted"
   ],
   "note": "REFUTED: max_iter_ls is unused. Proved: termination over exact reals for smooth f and L bounded below."
  },
  {
   "property": "C83",
   "status": "proved",
   "theorems": [
    "C83_saga_fixed_points",
    "C83_saga_group",
    "C83_saga_lasso"
   ],
   "note": "Exact reals; instances for l1 and group l1."
  },
  {
   "property": "C84",
   "status": "proved",
   "theorems": [
    "C84_vrtos_fixed_points",
    "C84_vrtos_fused_lasso"
   ],
   "note": "Exact reals; instance FusedLasso."
  },
  {
   "property": "C85",
   "status": "proved",
   "theorems": [
    "C85_factory_total",
    "C85_saga_total",
    "C85_svrg_total"
   ],
   "note": "Every arithmetic."
  },
  {
   "property": "C86",
   "status": "proved",
   "theorems": [
    "C86_svrg_fixed_points"
   ],
   "note": "Exact reals."
  },
  {
   "property": "C87",
   "status": "proved",
   "theorems": [
    "C87_tv2d_converges"
   ],
   "note": "Exact reals."
  },
  {
   "property": "C88",
   "status": "proved",
   "theorems": [
    "C88_huber_fw",
    "C88_huber_l1",
    "C88_logistic_l1",
    "C88_returns",
    "C88_square_fw",
    "C88_square_l1",
    "C88_values_unused"
   ],
   "note": "Exact reals; independence of values in every arithmetic."
  },
  {
   "property": "C89",
   "status": "partial",
   "theorems": [
    "C89_lipschitz_refuted",
    "C89_pair_refuted"
   ],
   "note": "REFUTED: the gradient alone is returned for every input, and with a zero matrix lipschitz is 0 although the gradient varies."
  },
  {
   "property": "C90",
   "status": "proved",
   "theorems": [
    "C90_full_batch"
   ],
   "note": "Exact reals."
  },
  {
   "property": "C91",
   "status": "proved",
   "theorems": [
    "C91_curvature",
    "C91_mean_rate"
   ],
   "note": "Exact reals; uniform independent draws are the assumption about np.random.randint."
  },
  {
   "property": "C92",
   "status": "proved",
   "theorems": [
    "C92_backtracking",
    "C92_fixed_step",
    "C92_huber_l1",
    "C92_logistic_l1",
    "C92_square_l1",
    "C92_success"
   ],
   "note": "Exact reals; the distance and gap bounds hold for every callback and tolerance. Backtracking: iterations whose line search succeeded (see C37_never_exhausted)."
  },
  {
   "property": "C93",
   "status": "proved",
   "theorems": [
    "C93_ball_rate",
    "C93_frank_wolfe",
    "C93_prox_accelerated",
    "C93_prox_rate",
    "C93_thin"
   ],
   "note": "Exact reals; the decompositions are parameters that must meet SpecTrace.v at every matrix (routines doing so exist for every shape, SvdExists2.v)."
  },
  {
   "property": "C94",
   "status": "proved",
   "theorems": [
    "C94_errors",
    "C94_frank_wolfe",
    "C94_gradient",
    "C94_loss_only",
    "C94_state_free",
    "C94_view",
    "C94_view_error"
   ],
   "note": "PyTorch is a parameter: autograd must return the gradient of the loss it is given, with no hidden state. Gradient theorems in exact reals (no rounding on dtype conversion); error and state theorems for every Num and every conversion."
  },
  {
   "property": "C95",
   "status": "partial",
   "theorems": [
    "C95_accumulates",
    "C95_refuted",
    "C95_untouched_partial"
   ],
   "note": "REFUTED: backward() adds to the .grad of every other leaf, also with return_gradient=False; k calls add k times the gradient. Proved: leaves outside the graph are untouched."
  },
  {
   "property": "C96",
   "status": "proved",
   "theorems": [
    "C96_svrg_descent",
    "C96_svrg_linear",
    "C96_svrg_rate",
    "C96_svrg_success",
    "C96_svrg_terminates"
   ],
   "note": "Exact reals, no proximal operator, default blocks. Any permutation in each epoch; D = 1 for dense data and D = n always works. When alpha > 0 every feature must be stored by some sample (see C57)."
  },
  {
   "property": "C97",
   "status": "proved",
   "theorems": [
    "C97_saga_energy",
    "C97_saga_linear",
    "C97_saga_rate",
    "C97_saga_terminates"
   ],
   "note": "As C96, with a smaller step. The age w_k enters the energy; it starts from the sample gradients at x0 because the memory is initialised with zeros."
  },
  {
   "property": "C98",
   "status": "partial",
   "theorems": [
    "C98_saga_success_partial",
    "C98_saga_success_refuted"
   ],
   "note": "REFUTED: the stopping test can hold with an arbitrarily large gradient (two-sample least squares, any step up to 1/100, any tol). Proved: the gradient bound with the age of the memory."
  },
  {
   "property": "C99",
   "status": "proved",
   "theorems": [
    "C99_saga_group_linear",
    "C99_saga_lasso_linear",
    "C99_saga_lasso_terminates",
    "C99_saga_prox_bounded",
    "C99_saga_prox_linear",
    "C99_saga_prox_rate",
    "C99_saga_prox_terminates"
   ],
   "note": "Exact reals. Any permutation in each epoch. The comparison points z agree with x0 on features that no sample touches (the solver never moves them)."
  },
  {
   "property": "C100",
   "status": "proved",
   "theorems": [
    "C100_svrg_lasso_linear",
    "C100_svrg_lasso_terminates",
    "C100_svrg_prox_descent",
    "C100_svrg_prox_linear",
    "C100_svrg_prox_rate",
    "C100_svrg_prox_terminates"
   ],
   "note": "Exact reals. Any permutation in each epoch. Blocks must be stored in full or not at all by each sample: otherwise grad_tmp keeps stale entries (C60). Comparison points as in C99."
  },
  {
   "property": "C101",
   "status": "partial",
   "theorems": [
    "C101_elements",
    "C101_float_partial",
    "C101_integer_refuted",
    "C101_primal_dual"
   ],
   "note": "REFUTED for integer starting points in the not accelerated branch: x keeps the integer type of x0 and x[:] = x_next truncates, while the gradient kept for the next step is the one at the point before truncation; the solver then reports success at a point whose gradient norm is L/2, for every L. Proved: float starting points give the value model, for every number type; caller arrays are untouched for every element type; the result always has the element type of x0 (also in minimize_primal_dual)."
  },
  {
   "property": "C102",
   "status": "partial",
   "theorems": [
    "C102_fresh_partial",
    "C102_same_array_refuted"
   ],
   "note": "REFUTED when L.matvec returns its argument (scipy IdentityOperator): y and x are then one array and the solver reports success at 0 when the minimizer is c. Proved: operators that deliver a new array give the value model, and caller arrays are untouched."
  },
  {
   "property": "C103",
   "status": "partial",
   "theorems": [
    "C103_kept_refuted",
    "C103_same_array"
   ],
   "note": "REFUTED: the not accelerated branch shows the same array to every callback and overwrites it; a callback that keeps the reference ends up with the final iterate. Exact description proved for every run and element type. (Trace copies, C31.)"
  },
  {
   "property": "C104",
   "status": "proved",
   "theorems": [
    "C104_DR",
    "C104_backtracking",
    "C104_sublinear"
   ],
   "note": "Exact reals, exact oracle. For backtracking the line search never runs out when L <= L0*(9/10)^max_iter*2^99."
  },
  {
   "property": "C105",
   "status": "proved",
   "theorems": [
    "C105_DR",
    "C105_backtracking"
   ],
   "note": "Exact reals, exact oracle. The sublinear step is not covered: it is no descent method."
  },
  {
   "property": "C106",
   "status": "proved",
   "theorems": [
    "C106_backtracking",
    "C106_fixed_step"
   ],
   "note": "Exact reals. Backtracking: max_iter_backtracking large enough for C37 (explicit inequality)."
  },
  {
   "property": "C107",
   "status": "partial",
   "theorems": [
    "C107_errors",
    "C107_shape_refuted",
    "C107_square_partial"
   ],
   "note": "REFUTED: PIL takes (width, height), so every non-square request comes back with rows and columns swapped. Proved: square requests, pixels kept at the size of the file, exactly which calls raise."
  },
  {
   "property": "C108",
   "status": "proved",
   "theorems": [
    "C108_choice",
    "C108_mean_rate"
   ],
   "note": "Exact reals; uniform independent batches are the assumption about np.random.choice (C108_choice: its values form a balanced family). Vanilla oracle."
  },
  {
   "property": "C109",
   "status": "proved",
   "theorems": [
    "C109_mean_rate"
   ],
   "note": "Exact reals; pow23 is the real power 2/3; uniform independent batches are the assumption about np.random.choice. Vanilla oracle."
  },
  {
   "property": "C110",
   "status": "proved",
   "theorems": [
    "C110_monotone",
    "C110_overflow",
    "C110_prox"
   ],
   "note": "Float64 instance of the model (SpecFloat), linked to Flocq."
  },
  {
   "property": "C111",
   "status": "proved",
   "theorems": [
    "C111_clip",
    "C111_idempotent"
   ],
   "note": "Float64 instance. -0.0 and 0.0 compare equal, as in numpy."
  },
  {
   "property": "C112",
   "status": "partial",
   "theorems": [
    "C112_backtracking_refuted",
    "C112_prox_refuted",
    "C112_solver_refuted",
    "C112_success_partial"
   ],
   "note": "REFUTED: np.fmax ignores nan, so L1Norm.prox maps nan to 0 (C112_prox_refuted) and minimize_proximal_gradient reports success at the zero vector when all gradients are nan (C112_solver_refuted for every callable step, C112_backtracking_refuted for the default options). C112_success_partial: without acceleration, success implies that no entry of the returned x is nan."
  },
  {
   "property": "C113",
   "status": "proved",
   "theorems": [
    "C113_matvec",
    "C113_vecmat"
   ],
   "note": "Products and sums rounded one by one, in the order of the loops (numba without fastmath: no reassociation, no fused multiply-add)."
  },
  {
   "property": "C114",
   "status": "proved",
   "theorems": [
    "C114_l1ball",
    "C114_simplex"
   ],
   "note": "The sum of v is modelled left to right (np.sum adds pairwise; the bound only uses the classical error of a sum)."
  },
  {
   "property": "C115",
   "status": "partial",
   "theorems": [
    "C115_in_range_partial",
    "C115_refuted"
   ],
   "note": "REFUTED: an entry of at least 2^55 s (with any number of zeros) makes np.nonzero(...)[0][-1] index an empty array: IndexError. C115_in_range_partial: both return when all entries are within 2^52 s (and no overflow)."
  },
  {
   "property": "C116",
   "status": "partial",
   "theorems": [
    "C116_line_search_converges_partial",
    "C116_refuted"
   ],
   "note": "REFUTED: increments of norm at most 1e-7 skip the line search (splitting.py 133), so for f = (L/2)|x|^2 with step 2/L and |x0| <= 0.5e-7 the iterates alternate between x0 and -x0 for ever. C116_line_search_converges_partial: explicit iteration bound whenever 1e-7 < tol*smin and the test slack 2^-52 is dominated, smin = min(s0, factor/L)."
  },
  {
   "property": "C117",
   "status": "proved",
   "theorems": [
    "C117_expit",
    "C117_logsig",
    "C117_partial_deriv"
   ],
   "note": "np.exp and np.log1p are parameters with relative error d plus one smallest subnormal; C117_nonvacuous: correctly rounded versions exist (d = 2^-53). Float64 instance of the model."
  },
  {
   "property": "C118",
   "status": "partial",
   "theorems": [
    "C118_finite_partial",
    "C118_infinite_margin",
    "C118_intercept_partial",
    "C118_refuted",
    "C118_ridge_partial",
    "C118_value_partial"
   ],
   "note": "REFUTED: when a margin overflows on the side of its label, (1 - b) z - logsig(z) is 0*inf or inf - inf, and the loss is nan (C118_infinite_margin, any data; C118_refuted: a finite sample whose exact loss is at most 1). C118_value_partial: with finite margins bounded by Z the value (alpha = 0, no intercept) is within (3d + (6n+14) 2^-53)(Z+1) of the exact mean at the computed margins. C118_ridge_partial: any alpha, against the documented loss at the exact margins; C118_finite_partial: the value is finite away from the overflow threshold. C118_intercept_partial: the same with an intercept. np.mean is modelled left to right."
  },
  {
   "property": "C119",
   "status": "proved",
   "theorems": [
    "C119_mean_rate"
   ],
   "note": "Exact reals; uniform independent batches are the assumption about np.random.choice. Vanilla oracle. The rate is 1/sqrt(T); the 1/T rate of the paper of this variant is not claimed."
  },
  {
   "property": "C120",
   "status": "proved",
   "theorems": [
    "C120_moving_steps",
    "C120_terminates"
   ],
   "note": "Exact reals. The number of iterations of step zero is not bounded: C46_stall_refuted is a run in which all the remaining iterations are of this kind."
  },
  {
   "property": "C121",
   "status": "partial",
   "theorems": [
    "C121_logloss_partial",
    "C121_unimplemented_refuted"
   ],
   "note": "REFUTED: for \"square\" and \"huber\" the function raises NotImplementedError. For \"logloss\" the constant is right and best possible."
  },
  {
   "property": "C122",
   "status": "proved",
   "theorems": [
    "C122_returns",
    "C122_update"
   ],
   "note": "Float64 instance of the model, whole range of float64 values. The gradient must be free of nan (a nan sign is a dictionary key that differs from itself); the Lipschitz constant is positive."
  },
  {
   "property": "C123",
   "status": "proved",
   "theorems": [
    "C123_iterates",
    "C123_sublinear"
   ],
   "note": "Float64 instance of the model. C123_iterates assumes steps in [0, 1] (in the comparisons of float64), which C123_sublinear proves for step=sublinear."
  },
  {
   "property": "C124",
   "status": "partial",
   "theorems": [
    "C124_float_partial",
    "C124_integers_partial",
    "C124_refuted",
    "C124_saga_stuck_partial",
    "C124_svrg_stuck_partial"
   ],
   "note": "REFUTED: integer starting points are truncated at every update (C124_refuted, for every step size; general form C124_svrg_stuck_partial and C124_saga_stuck_partial). C124_float_partial and C124_integers_partial say what holds. The conversion of a float to the integer type of the array is truncation towards zero; overflow of the integer type is not modelled."
  },
  {
   "property": "C125",
   "status": "proved",
   "theorems": [
    "C125_finite",
    "C125_gradient",
    "C125_intercept"
   ],
   "note": "Float64 instance of the model; the products A x and A.T u are added left to right (numpy and scipy may use another order or fused operations). np.exp is a parameter of relative error d. C125_intercept: with an intercept, including the derivative with respect to it."
  },
  {
   "property": "C126",
   "status": "partial",
   "theorems": [
    "C126_float_partial",
    "C126_gradient_partial",
    "C126_hessian_partial",
    "C126_refuted",
    "C126_value_partial"
   ],
   "note": "REFUTED: C126_refuted (log 2 against 0, gradient -1/2 against 0); general form C126_value_partial, C126_gradient_partial, C126_hessian_partial. C126_float_partial: what holds. Exact arithmetic for the values, integer types of unlimited range."
  },
  {
   "property": "C127",
   "status": "partial",
   "theorems": [
    "C127_pairs_partial",
    "C127_refuted",
    "C127_sublinear_partial",
    "C127_vanilla_oracle_partial"
   ],
   "note": "REFUTED: C127_refuted (TypeError with the default x0_rep), C127_vanilla_oracle_partial and C127_sublinear_partial (ValueError with L1Ball.lmo, and the exact condition). C127_pairs_partial: what holds (callback None, step not callable)."
  },
  {
   "property": "C128",
   "status": "partial",
   "theorems": [
    "C128_float_partial",
    "C128_integers_partial",
    "C128_refuted",
    "C128_stuck_partial"
   ],
   "note": "REFUTED: integer starting points are truncated at every update (C128_refuted, for every step size below 4; general form C128_stuck_partial, without prox). C128_float_partial and C128_integers_partial say what holds. Overflow of the integer type is not modelled."
  },
  {
   "property": "C129",
   "status": "partial",
   "theorems": [
    "C129_accuracy_partial",
    "C129_feasible_partial",
    "C129_overflow_partial",
    "C129_refuted",
    "C129_underflow_partial"
   ],
   "note": "REFUTED: C129_refuted (2^600 is projected to 0; 2^-560 stays outside a ball of radius 2^-700); C129_overflow_partial and C129_underflow_partial give the ranges. C129_accuracy_partial and C129_feasible_partial: what holds between them. The sum of squares is taken from left to right (numpy sums pairwise)."
  },
  {
   "property": "C130",
   "status": "partial",
   "theorems": [
    "C130_accuracy_partial",
    "C130_overflow_partial",
    "C130_refuted"
   ],
   "note": "REFUTED: C130_refuted (nan for a finite input whose exact prox is finite); C130_overflow_partial gives the range. C130_accuracy_partial: what holds away from overflow. The sum of squares is taken from left to right (numpy leaves the order to its dot product)."
  },
  {
   "property": "C131",
   "status": "partial",
   "theorems": [
    "C131_DR_partial",
    "C131_refuted",
    "C131_sublinear_partial"
   ],
   "note": "REFUTED: C131_refuted (ValueError with the default steps; negative step and weight with SAGA and DR; nan along a vanishing direction). C131_sublinear_partial: runs with the default steps that do not raise; C131_DR_partial: SAG with DR steps returns, and decomposes when no direction vanishes. x0_rep must be given: for the key None see C133."
  },
  {
   "property": "C132",
   "status": "proved",
   "theorems": [
    "C132_iterates",
    "C132_sublinear"
   ],
   "note": "About runs that return; the estimates are assumed free of nan along the run (the derivative is arbitrary). The power 2/3 of MHK only enters the estimates."
  },
  {
   "property": "C133",
   "status": "partial",
   "theorems": [
    "C133_pairs_partial",
    "C133_refuted",
    "C133_sublinear_partial",
    "C133_vanilla_oracle_partial"
   ],
   "note": "REFUTED: C133_refuted (TypeError with the default x0_rep and the pairwise oracle). C133_vanilla_oracle_partial, C133_sublinear_partial: with the plain oracle the run returns exactly when the steps add up to at most the weight of None, and raises ValueError otherwise. C133_pairs_partial: with a vertex representation the run is that of C131."
  },
  {
   "property": "C134",
   "status": "proved",
   "theorems": [
    "C134_finite",
    "C134_huber",
    "C134_square"
   ],
   "note": "Dense data, sums in the order of the model (the order of additions inside numpy products is not modelled); the residuals computed in binary64 must be finite."
  },
  {
   "property": "C135",
   "status": "partial",
   "theorems": [
    "C135_dual",
    "C135_feasible_partial",
    "C135_pairwise_partial",
    "C135_refuted"
   ],
   "note": "REFUTED for the pairwise oracle: extr_point is the iterate plus the difference of two vertices; C135_refuted is a run in which a prediction leaves the range of the ball. Proved: the vanilla oracle (C135_feasible_partial), the ball of three times the radius for the pairwise oracle (C135_pairwise_partial), and the dual variables (C135_dual)."
  },
  {
   "property": "C136",
   "status": "proved",
   "theorems": [
    "C136_finite",
    "C136_huber",
    "C136_nonneg",
    "C136_square"
   ],
   "note": "The products A x are those of C113 (one addition after another); the residuals are assumed finite."
  },
  {
   "property": "C137",
   "status": "partial",
   "theorems": [
    "C137_log_partial",
    "C137_refuted",
    "C137_square_partial"
   ],
   "note": "REFUTED: C137_refuted gives a row whose constant is rounded down and a non-zero row whose constant underflows to 0. C137_log_partial, C137_square_partial: two-sided bound up to the rounding error of the row; the squared norms are added left to right."
  },
  {
   "property": "C138",
   "status": "proved",
   "theorems": [
    "C138_gap",
    "C138_returned"
   ],
   "note": "C138_gap is two-sided and about one call of the oracle; C138_returned is about the result of minimize_frank_wolfe (vanilla). Dot products are added left to right. Finiteness of the point and of the certificate is a hypothesis (C123 gives the former)."
  }
 ]
}