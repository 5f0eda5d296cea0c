# Formal model of openopt/copt in Rocq (Coq 8.16.1)

Status of this file: design first, kept current as the development grows.
`properties.jsonl` holds the English properties, `MANIFEST.json` maps them to theorems,
`seeded/LOG.jsonl` records the mutation experiments.

## 1. Approach

*One model, several arithmetics.*  Every Python function is a small total Gallina
function, parametric in a record `Num` of arithmetic operations (`theories/Num.v`).  Instances:

| instance | use |
|---|---|
| `RN` (Coq `R`)      | optimality/convergence theorems (exact real arithmetic) |
| `QN` (`Q`)          | executable exact arithmetic, examples and refutation witnesses by `vm_compute` |
| `F64` (`SpecFloat`) | executable IEEE binary64 (pure Gallina, no primitive floats) |

Theorems about control flow, indices, bookkeeping and index safety are stated for **every**
`Num` (hence also for IEEE arithmetic with NaN); theorems about minimisers are stated at `RN`.
Rounding errors are treated in C110-C115, C117, C118, C122, C123, C125, C132, C134, C136, C137 and C138 only (proxes, sparse products, projections, logistic loss and its gradient, the active set and the iterates of Frank-Wolfe); the convergence theorems are about exact arithmetic.

*Exceptions are values* (`Ok a | Err e`).  Array accesses that matter for safety are
checked accesses (`option`).  User callables (`fun`, `prox`, `lmo`, `step`, `callback`) are
universally quantified; callbacks receive the complete history, so arbitrary stateful
deterministic callbacks are covered.  Random choices (shuffles, samples) are universally
quantified inputs.  Loops are structural recursion on the Python loop bound.

## 2. Files

* `Num.v`, `Vec.v`              arithmetic record, numpy vector primitives (model side)
* `Spec.v`                      the specification vocabulary (prox, projection, TV, ...), independent of the model
* `Model*.v`                    the model, one file per Python module, each definition citing file:lines
* `*_proofs.v` / `*Facts.v`     proofs
* `Props*.v`                    property theorems only (`exact lemma.` + `Print Assumptions`) and non-vacuity examples

## 3. Plan per property

| id | what is modelled | how it is proved |
|---|---|---|
| C01-C02 | LinfBall/L2Ball prox | variational inequality, coordinatewise / Cauchy-Schwarz |
| C03-C04 | sort, cumsum, threshold search | induction on the sorted list; variational inequality |
| C05-C07 | argmax/sign/direction | Hoelder inequality; C07 refuted by witness, partial for max(u)>=0 |
| C08, C18 | thresholding of an arbitrary valid SVD | norm duality, no von Neumann inequality needed |
| C09-C13 | dense and sparse proxes over CSR arrays | separable prox lemmas, loop invariants on array updates |
| C14-C15 | taut string routine with explicit arrays, all accesses checked | loop invariant: two hulls + KKT conditions of TV |
| C16, C87 | Dykstra loop, rows and columns as index lists | invariant w = x+p+q, subgradient inequalities from C14; norm of x decreases by the squared change |
| C17 | operator rows | induction on rows/cols |
| C19-C22, C26 | losses over a matrix given by its rows; np.exp etc. as parameters | scalar gap and Lipschitz bounds (mean value theorem), lifted to the mean over samples; Frechet gradients |
| C23 | Lipschitz constants; svds as a parameter returning the largest singular value | weighted row sums, Cauchy-Schwarz; minimality by the second-order expansion at 0 |
| C24 | hessian_mv, with and without intercept | second-order bound on the gradient; refuted for n >= 2, alpha<>0 (ridge term divided by n), exact otherwise |
| C88 | the losses plugged into the solver models | simulation (values unused with a callable step), then C74 and C47 |
| C89 | intercept mode | refuted: no pair returned, constant ignores the intercept |
| C25, C27, C28 | decision logic, shapes | case analysis; refutations by computation |
| C29 | parallel loop = any permutation of writes | disjointness |
| C30, C55-C56 | CSR loops | loop invariants |
| C31 | Trace on a heap of arrays | induction over call histories |
| C32-C40 | solver loops with arbitrary callables | induction on iterations; three-point inequality |
| C41-C49 | FW loops, active set as association list (defaultdict) | invariants; C46, C49 refuted |
| C50-C54 | splitting loops | invariant u in dh(z), KKT residual; staleness of certificate |
| C78, C80 | the same loops, no line search | Lyapunov functions (Davis-Yin, Condat-Vu) over the iteration trace |
| C79, C81, C82 | the line searches | refuted by binary64 runs; what does hold proved as `_partial` |
| C57-C63, C69 | SAGA, SVRG, VRTOS epochs over arbitrary index histories | invariants; findings refuted by witness |
| C83, C84, C86 | the same epochs | resting points: memory = current derivatives, then optimality of the block proxes |
| C85 | the same epochs, checked accesses | every access in bounds, every prox total |
| C64-C68 | SFW batches over arbitrary index histories, all four variants | invariants; findings refuted by witness |
| C90 | SFW SAG, full batch | the estimate is the gradient; Frank-Wolfe recurrence |
| C91 | SFW SAG, one sample per step | sums over all index words; error recursion of the dual variables |
| C108, C109 | SFW SAG, SAGA, MHK, any batch size, batches from a balanced family | one step: the dual error falls by the error of the batch and grows with the move (SfwMean.v); mean over the batches; recursions solved in closed form, cube roots for MHK (SfwMean2.v, SfwMean3.v); SfwMean4.v: the values of np.random.choice are balanced |
| C92 | the proximal gradient solver on strongly convex problems; the ridge losses with an l1 penalty | one-step contraction from the prox inequality, then induction on the iteration history; success by bounding the certificate |
| C93 | TraceBall/TraceNorm passed to the solver models | convexity and diameter of the nuclear ball (dual norm), then C37, C47, C74 |
| C94 | ModelTorch.v: `infer`, `func_and_grad`, `calls` | case analysis of view against its specification; the wrapper then gives C47 its hypotheses (convexity and a Frechet derivative give the first-order inequality) |
| C95 | `accumulate_all`, `calls` | REFUTED by a two-entry loss; induction on the calls for the exact growth |
| C96 | `minimize_svrg` over RN, any permutations | an epoch is one gradient step of length step n plus an error controlled by the drift inside the epoch (EpochFacts.drift); descent lemma, gradient domination, counting |
| C97 | `minimize_saga` over RN, any permutations | as C96 with the age of the memory as a second state; energy F + 2 step n w^2 |
| C98 | the success flag of `minimize_saga` | REFUTED by a run with symbolic step; the positive bound from the epoch identity of C97 |
| C99 | `minimize_saga` over RN with a sparse prox, any permutations | each sample step satisfies the variational inequality of its prox (ProxSaga.prox_call); summing over an epoch gives descent of obj + 2 (age)^2/L and an optimality certificate (ProxEpochs.epoch_all); sequence lemmas pseq_rate, pseq_linear, pseq_move |
| C100 | `minimize_svrg` over RN with a sparse prox, any permutations | the same epoch lemma with memory frozen at the snapshot (ProxSvrg) |
| C69 (arrays), C101, C102, C103 | ModelMemory.v: the arrays that the solvers write in place live in a heap, `a[:] = v` converts to the element type of a, `L.matvec` may return its argument | refinement of the value models when arrays are distinct floats (MemoryFacts.v); frame lemmas for every element type; REFUTED by runs with symbolic parameters |
| C104, C105, C106 | ModelFrankWolfe.v and ModelProxGrad.v at the reals | every iteration that does not stop lowers the objective by a fixed amount, or (convex sublinear rate) the gaps sum to too much; count of the iterations (FwStops.v, PgStops.v) |
| C110-C115 | the `F64` instance of ModelPenalty, ModelConstraint, ModelUtilsArr, ModelProxGrad | FloatBase.v: SpecFloat operations = Flocq's Bplus, Bmult, ... ; then real inequalities: exactness of the second subtraction (C110), Wilkinson-type induction (C113), stability of the threshold under perturbed comparisons (FloatSimplex*.v, C114); C112 and C115 refuted for whole families of inputs |
| C116 | minimize_three_split (splitting.py 8-171) with line search | SplittingLsConv.v: merit \|z+su-z*-su*\|^2, which a shorter step decreases; the sufficient-decrease test replaces the bound s < 2/L (convex combination of two estimates); refuted below the 1e-7 cut-off (SplittingLsRuns.v) |
| C117, C118 | the `F64` instance of LogLoss.logsig, expit_b, partial_deriv and f_grad (loss.py 50-98, 180-197) | FloatLogistic.v: conditioning of log1p, the thresholds against exp(-33), exp(-37) (rational bounds on e), perturbed quotient; FloatLogistic2.v: error of the mean; FloatLogValue.v, FloatLogInter.v: any alpha and intercept, the terms are 1-Lipschitz in the margin; infinite margins refuted. np.exp and np.log1p are any functions of relative error d |
| C119 | SFW LF, any batch size, batches from a balanced family | invariant: each running average stays within Dinf of every a_i.v; the mean of the squared lag of the averages falls like 25 m Dinf^2/(2m+t+1) (SfwLf.v, SfwLfArith.v); unvisited dual variables disappear like m/(m+t); Young's inequality with a weight that depends on t instead of a root of a mean (SfwLf2.v); SfwLf3.v: the rate |
| C120 | pairwise Frank-Wolfe, DR step, l1 ball | an unclipped step gains at least tol^2/(8 alpha^2 L); between two of them the weights are split into tokens, one per vertex, and a clipped step moves all tokens of the away vertex to the Frank-Wolfe vertex, so the iterates are images of maps from tokens to vertices and all different since f decreases: at most m^m of them for m vertices (FwPairSteps.v, invariant phase; FwPairSteps2.v: the run; FwPairMain.v) |
| C121 | get_max_lipschitz (ModelMaxLip.v) | computes for every loss name; the logloss case is the constant of C23 |
| C122 | minimize_fw, l1_lmo_pairwise and update_active_set at F64 | invariant of the loop: keys distinct, weights nan or not below zero; python's min never compares greater than the away weight, and rounding a difference w - s with s <= w, or (w + s) - s, is not below zero |
| C123 | minimize_fw and l1_lmo at F64, exact values of floats as reals | error of one coordinate x + g d, summed over the vector, then induction over the iterations |
| C124 | minimize_saga/minimize_svrg with a conversion at each write to x (ModelIntStart.v) | refuted by a one-sample problem for every step; stuck theorems by an invariant over the samples of the epoch; equality with the plain model for the identity conversion |
| C125 | ModelLoss.v `log_f_grad` at F64 (FloatGrad.v, FloatGradMain.v, FloatGradInter.v) | component j as one accumulated product for every arithmetic; error of the margins, of the sigmoid (C117), of the products, added up; the exact gradient is the RN instance (C20) |
| C126 | LogLoss.f_grad, hessian_mv, hessian_trace with a conversion where an array allocated by zeros_like / empty_like is written (ModelIntLoss.v) | refuted by a one-sample problem; truncation of log-sigmoid by its range on the four branches, of sigma - b by its absolute value below one |
| C127 | frank_wolfe.py with active-set keys that may be None, L1Ball.lmo and lmo_pairwise on them (ModelFwNone.v) | refuted for every problem; the weight of the key None along a run is 1 (or 0) minus the sum of the steps, the other keys never get below zero; embedding of the model without None |
| C128 | minimize_vrtos with a conversion at each write to x0, x1 and z (ModelIntVrtos.v) | refuted by a one-sample problem; stuck theorem by an invariant over the set of visited samples, for all sample orders and epoch counts; equality with the plain model for the identity conversion |
| C129 | L2Ball.prox at F64 (ModelConstraint.v) | square root linked to Flocq (FloatNorm.v), relative error of the norm, case split on the two comparisons; overflow and underflow by invariants of the sum; REFUTED by two witnesses |
| C130 | GroupL1.prox at F64 (ModelPenalty.v) | what the loop writes is proved for every arithmetic (FloatGroup.v), then relative error of the norm, of the threshold and of the quotient, four cases of the two comparisons; overflow: the norm is inf; REFUTED by a witness |
| C131 | minimize_sfw with lmo_variant='pairwise' (ModelSfw.v) | the invariant of C45 (convex decomposition of the iterate) carried through the epochs of C65; the DR step of SAG is at most the weight of the away vertex because the oracle is exact; REFUTED by three binary64 runs |
| C132 | minimize_sfw at F64 (ModelSfw.v) | the per-iteration drift of C123 carried through the epochs; the LF step is at most 1 by monotone rounding and exact doubling |
| C133 | the active set of minimize_sfw with None among its keys (ModelSfwNone.v): x0_rep=None, oracles whose away vertex is None | REFUTED for every arithmetic: the first oracle call cannot unpack None; with L1Ball.lmo the weight of None is 1 minus the sum of the steps, by induction over the epochs against the vanilla run; with pairs as keys, simulation by the model of C131 |
| C134 | SquareLoss.f_grad and HuberLoss.f_grad at F64 | error of the residual from C113, propagated through a 1-Lipschitz map (identity, clipping), the masked sums of the two Huber branches joined into one; no overflow by the size of the partial sums |
| C135 | ModelSfw.v | REFUTED for the pairwise oracle by a run (a prediction outside the range of the ball); proved by induction over the run: feasible predictions with the vanilla oracle, predictions in the ball of three times the radius with the pairwise one, dual variables = derivatives at the predictions |
| C136 | ModelLoss.v over F64 | standard rounding-error analysis: the sums by induction over the samples (facc_err), the Huber samples by their Lipschitz constant so that the branch chosen on the rounded residual costs nothing extra, the last operations by one lemma per rounding; sign by monotonicity of rounding; finiteness by magnitudes |
| C137 | ModelLoss.v and ModelMaxLip.v over F64 | REFUTED by two one-row matrices; the maximum commutes with the monotone roundings, so the result is the one computed from a single row (FloatLip.v) |
| C138 | ModelConstraint.v and ModelFrankWolfe.v over F64 | argmax of finite numbers is the argmax of their values, so the oracle picks the vertex of the exact oracle; the direction differs in one rounded entry, the dot product by its summation error (FloatGap.v) |
| C107 | ModelImage.v | REFUTED for every non-square size; positive part and characterisation of the errors by computation with `rows_of` |
| C70-C72 | loaders as programs over a file system and a network, killed after any number of operations | induction over the program, the archive and the downloads; findings refuted for every dataset |

## 4. Trusted base

* Coq 8.16.1 kernel; `vm_compute` for concrete runs (re-checked without the VM by `coqchk`).
* Standard library axioms, as listed by `Print Assumptions` (table below); no axioms of our own, no other library.
* The reading of the Python code recorded in the comments of the `Model*` files, including the
  behaviour of numpy, scipy, numba and the Python runtime stated there.

What `Print Assumptions` lists (S = `ClassicalDedekindReals.sig_forall_dec`,
`ClassicalDedekindReals.sig_not_dec`, `FunctionalExtensionality.functional_extensionality_dep`;
C = `Classical_Prop.classic`):

* **S** (167): C01_linf_prox_is_projection, C02_l2_prox_is_projection, C03_proj_simplex_is_projection, C04_l1ball_prox_is_projection, C05_l1_lmo, C06_l1_lmo_pairwise, C06_l1_lmo_pairwise_empty, C07_simplex_lmo_partial, C07_simplex_lmo_refuted, C110_overflow, C130_refuted, C129_refuted, C137_refuted, C41_feasible, C41_returns, C42_certificate_bound, C42_certificate_bound_pairwise, C43_line_search, C43_line_search_succeeds, C44_descent, C44_descent_pairwise, C45_decomposition, C45_returns, C45_step_too_large, C46_drop_step_refuted, C46_weights_partial, C47_rate_sublinear, C47_rate_DR, C47_rate_backtracking, C47_l1_ball, C77_l1_oracle_partial, C127_vanilla_oracle_partial, C127_sublinear_partial, C120_moving_steps, C120_terminates, C126_hessian_partial, C124_refuted, C124_svrg_stuck_partial, C124_saga_stuck_partial, C124_integers_partial, C128_refuted, C128_stuck_partial, C128_integers_partial, C92_backtracking, C92_fixed_step, C92_success, C92_square_l1, C92_huber_l1, C20_expit, C21_square, C22_huber, C23_sq, C23_huber, C23_sq_tight, C23_max_sq, C23_max_sq_tight, C25_labels, C26_square, C88_square_l1, C88_huber_l1, C88_square_fw, C88_huber_fw, C101_integer_refuted, C102_same_array_refuted, C09_l1norm_prox, C09_l1norm_call, C10_group_prox_partial, C10_group_prox_refuted, C11_group_sparse_prox, C11_group_sparse_all, C12_l1_sparse_is_prox, C13_fused_sparse_prox, C32_init_lipschitz_pos, C34_max_iter_refuted, C36_descent, C37_rate, C37_smooth_steps, C37_rate_explicit, C37_linesearch_succeeds, C37_never_exhausted, C38_stationarity, C74_fista_rate, C74_fista_constant_step, C75_accelerated_certificate_partial, C56_weights_mean, C57_saga_memory, C58_saga_unbiased_partial, C58_saga_unbiased_refuted, C59_factory_local, C59_optimal_refuted, C60_svrg_bias_partial, C60_svrg_unbiased_separable_partial, C60_svrg_unbiased_refuted, C61_vrtos_memory, C83_saga_fixed_points, C83_saga_lasso, C83_saga_group, C84_vrtos_fixed_points, C84_vrtos_fused_lasso, C85_factory_total, C86_svrg_fixed_points, C64_aggregate, C64_dual_last_visit, C65_feasible_sublinear_partial, C65_feasible_DR_partial, C65_returns, C68_saga_mean, C68_saga_unbiased_partial, C68_full_batch_estimate, C68_saga_unbiased_refuted, C90_full_batch, C91_mean_rate, C91_curvature, C119_mean_rate, C135_feasible_partial, C135_pairwise_partial, C135_dual, C108_mean_rate, C133_vanilla_oracle_partial, C133_sublinear_partial, C131_sublinear_partial, C131_DR_partial, C116_line_search_converges_partial, C116_refuted, C50_success, C50_gap, C50_zero_certificate, C51_steps, C51_smooth, C52_residual, C52_fixed_point, C78_fixed_step_converges, C80_fixed_step_converges, C79_accepted_partial, C81_update_partial, C82_terminates_partial, C104_sublinear, C104_DR, C104_backtracking, C105_DR, C105_backtracking, C106_backtracking, C106_fixed_step, C94_gradient, C94_frank_wolfe, C95_refuted, C95_accumulates, C08_prox, C08_prox_inside, C08_call, C08_lmo_partial, C18_prox, C18_nuc_exists, C18_call, C93_frank_wolfe, C93_prox_rate, C93_prox_accelerated, C93_ball_rate, C14_prox_tv1d, C14_fused_prox, C16_prox_tv2d, C16_penalty_prox, C87_tv2d_converges, C17_operator, C17_penalty, C30_matvec, C30_vecmat
* **S + C** (94): C96_svrg_descent, C96_svrg_rate, C96_svrg_linear, C96_svrg_success, C96_svrg_terminates, C97_saga_energy, C97_saga_rate, C97_saga_linear, C97_saga_terminates, C98_saga_success_refuted, C98_saga_success_partial, C110_prox, C110_monotone, C111_clip, C111_idempotent, C112_solver_refuted, C113_matvec, C113_vecmat, C114_simplex, C114_l1ball, C115_refuted, C115_in_range_partial, C123_iterates, C123_sublinear, C138_gap, C138_returned, C125_gradient, C125_finite, C125_intercept, C130_overflow_partial, C130_accuracy_partial, C129_overflow_partial, C129_underflow_partial, C129_accuracy_partial, C129_feasible_partial, C137_log_partial, C137_square_partial, C117_logsig, C117_expit, C117_partial_deriv, C118_infinite_margin, C118_refuted, C118_value_partial, C118_ridge_partial, C118_finite_partial, C118_intercept_partial, C134_square, C134_huber, C134_finite, C122_returns, C122_update, C132_iterates, C132_sublinear, C136_square, C136_huber, C136_nonneg, C136_finite, C126_refuted, C126_value_partial, C126_gradient_partial, C92_logistic_l1, C19_value, C19_intercept, C20_gradient, C20_intercept, C23_log, C23_log_tight, C23_max_log, C23_max_log_tight, C23_opnorm_exists, C24_hessian_partial, C24_intercept_partial, C24_refuted, C26_log, C88_logistic_l1, C89_pair_refuted, C89_lipschitz_refuted, C121_logloss_partial, C99_saga_prox_bounded, C99_saga_prox_rate, C99_saga_prox_linear, C99_saga_prox_terminates, C99_saga_lasso_linear, C99_saga_lasso_terminates, C99_saga_group_linear, C100_svrg_prox_descent, C100_svrg_prox_rate, C100_svrg_prox_linear, C100_svrg_prox_terminates, C100_svrg_lasso_linear, C100_svrg_lasso_terminates, C67_step_sizes, C109_mean_rate, C08_contracts
* **none (closed under the global context)** (140): C03_proj_simplex_rejects, C04_l1ball_prox_rejects, C05_l1_lmo_empty, C70_first_call, C70_recover_partial, C70_kdd10_recover, C70_retry_refuted, C70_incomplete_refuted, C70_truncated_refuted, C70_url_refuted, C70_named, C70_named_train, C71_url, C71_url_only_genuine, C71_url_never, C71_kdd10, C71_kdd10_only_genuine, C71_kdd12_partial, C71_kdd12_refuted, C71_criteo_partial, C71_criteo_refuted, C71_url_labels, C71_kdd12_labels, C71_sources, C72_subset_partial, C72_other_partial, C72_full_refuted, C112_prox_refuted, C112_backtracking_refuted, C112_success_partial, C46_stall_refuted, C48_arguments, C48_step_checked_partial, C48_step_unchecked_refuted, C48_callback, C49_certificate_partial, C49_certificate_refuted, C77_simplex_lmo_refuted, C127_refuted, C127_pairs_partial, C107_shape_refuted, C107_square_partial, C107_errors, C126_float_partial, C124_float_partial, C128_float_partial, C21_shapes, C25_empty, C26_schedules, C88_values_unused, C88_returns, C121_unimplemented_refuted, C69_saga_memory, C69_svrg_memory, C101_float_partial, C101_elements, C101_primal_dual, C102_fresh_partial, C103_same_array, C103_kept_refuted, C10_accepted_groups, C11_group_blocks, C12_l1_sparse_prox, C13_fused_split, C32_init_lipschitz_first, C33_success_certificate, C33_trace, C34_terminates_partial, C34_no_exception, C35_callback_stops, C39_step_rejected_partial, C39_accelerated_refuted, C39_backtracking_rejected, C40_accelerated, C73_fresh_partial, C73_fresh_refuted, C75_accelerated_certificate_refuted, C55_support_rows, C55_block_map, C55_make_blocks, C56_weights, C69_saga_contract, C69_svrg_contract, C69_degenerate, C57_saga_runs, C58_saga_step_then_prox, C59_saga_local_partial, C59_svrg_local_partial, C61_vrtos_average, C62_vrtos_safe_partial, C62_vrtos_bounds_refuted, C63_vrtos_certificate_partial, C63_vrtos_never_succeeds_refuted, C63_vrtos_run_refuted, C85_saga_total, C85_svrg_total, C65_DR_refuted, C66_stopping_partial, C66_stopping_refuted, C135_refuted, C108_choice, C133_refuted, C133_pairs_partial, C131_refuted, C51_contract, C51_errors, C51_trace, C53_success, C54_flag_partial, C54_warning_refuted, C54_errors, C79_unstable_refuted, C81_nan_refuted, C82_rounds_refuted, C82_unbounded_refuted, C94_view, C94_view_error, C94_errors, C94_state_free, C94_loss_only, C95_untouched_partial, C08_prox_errors, C08_lmo_refuted, C18_shape, C93_thin, C15_tv1d_total, C15_tv2d_total, C15_degenerate, C27_jac_partial, C27_finite_difference_refuted, C28_sparse_add_partial, C28_sparse_add_refuted, C28_sparse_add_matrices, C28_sparse_add_mismatch, C29_sample_batches, C30_in_bounds, C31_trace_lengths, C31_trace_by_value, C76_parse_step_partial, C76_parse_step_refuted

## 5. What is modelled and what is not

| file | modelled | not modelled |
|---|---|---|
| `constraint.py` | all classes; TraceBall in ModelTrace.v with svd, svdvals, svds as parameters (their contracts are SpecTrace.svd_at, svals_at, svds_at; svds raises for min(shape) <= 1; SvdExists2.v shows each contract is met by some routine at every matrix) | array dtypes |
| `penalty.py` | all classes; sparse factories as loops over CSR arrays | dtypes; prange order inside group loops where rows are disjoint |
| `tv_prox.py` | both routines statement by statement, uninitialised buffers as unwritten cells | dtype check, int32 overflow, strides, broadcasting of size-1 images |
| `loss.py` | LogLoss, SquareLoss, HuberLoss completely, both intercept modes, exceptions of the constructors and shape errors | order of additions inside matrix products; sparse A is its dense content; svds is a parameter (scipy raises for min(shape) <= 1); `hessian_mv` on wrong-length s; element types in ModelIntLoss.v only (without overflow of integer types, without float32) |
| `utils.py` | line search, init_lipschitz, get_max_lipschitz, Trace, safe_sparse_add, CSR products, parameter checks | wall-clock values of Trace, plotting helpers |
| `proximal_gradient.py`, `frank_wolfe.py`, `splitting.py` | whole solvers, all branches and exits, arbitrary callables; in-place updates and element types of minimize_proximal_gradient and minimize_primal_dual (ModelMemory.v) | in-place updates of Frank-Wolfe (x is a float copy of x0, never shared); None as active-set key only in ModelFwNone.v; verbose printing, callables that mutate the solver's arrays |
| `randomized.py` | SAGA, SVRG, VRTOS, SFW over arbitrary index histories; in-place updates of SAGA and SVRG (ModelMemory.v); integer x0 of SAGA, SVRG and VRTOS (ModelIntStart.v, ModelIntVrtos.v) | overflow of integer types; numba typing, wall clock; random generator = arbitrary permutation (SFW: arbitrary batches) |
| `datasets.py` | `_load_dataset` and all loaders as file and network operations; load_img1 with the interpolation of PIL as a parameter; CSR construction and vstack | buffering of writes, tar/npy/bz2/svmlight/md5 codecs (arbitrary functions), float labels |
| `utils_pytorch.py` | `make_func_and_grad` / `func_and_grad`: view and its inference of -1, dtype check, backward, accumulation into the other leaves (ModelTorch.v) | the loss and its autograd are parameters without hidden state; devices; dtype of the results |

Simplifications made by a definition are stated in its comment.
