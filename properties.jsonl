{"id": "C01", "title": "LinfBall.prox is the Euclidean projection onto the box", "statement": "For every vector x and radius alpha >= 0, LinfBall(alpha).prox(x) lies in {p : |p_i| <= alpha} and is at least as close to x as every other point of that set, and it is the only such point.", "quantifier": "all dimensions, all vectors x, all alpha >= 0", "why_tests_cant": "Random tests sample a measure-zero part of the input space; the claim is about every input (including ties, boundaries and degenerate inputs).", "anchors": ["copt/constraint.py:LinfBall.prox"]}
{"id": "C02", "title": "L2Ball.prox is the Euclidean projection onto the ball", "statement": "For every x and alpha >= 0, L2Ball(alpha).prox(x) has Euclidean norm at most alpha, is the nearest point of the ball to x, uniquely so; points already inside are returned unchanged.", "quantifier": "all dimensions, vectors x, alpha >= 0", "why_tests_cant": "Random tests sample a measure-zero part of the input space; the claim is about every input (including ties, boundaries and degenerate inputs).", "anchors": ["copt/constraint.py:L2Ball.prox"]}
{"id": "C03", "title": "euclidean_proj_simplex is the projection onto the simplex", "statement": "For every non-empty v and s > 0 the call neither raises nor reads out of range, and returns w with w_i >= 0, sum w = s and ||w - v|| <= ||y - v|| for all y in the simplex (uniquely); for s <= 0 it raises AssertionError.", "quantifier": "all lengths n >= 1, all v (ties included), all s", "why_tests_cant": "Random tests sample a measure-zero part of the input space; the claim is about every input (including ties, boundaries and degenerate inputs).", "anchors": ["copt/constraint.py:euclidean_proj_simplex", "copt/constraint.py:SimplexConstraint.prox"]}
{"id": "C04", "title": "L1Ball.prox / euclidean_proj_l1ball is the projection onto the l1 ball", "statement": "For every v and s > 0 the result has l1-norm at most s and is the (unique) nearest point of the l1 ball to v; vectors already in the ball are returned unchanged; s <= 0 raises.", "quantifier": "all lengths, all v, all s", "why_tests_cant": "Random tests sample a measure-zero part of the input space; the claim is about every input (including ties, boundaries and degenerate inputs).", "anchors": ["copt/constraint.py:euclidean_proj_l1ball", "copt/constraint.py:L1Ball.prox"]}
{"id": "C05", "title": "L1Ball.lmo solves the linear problem and reports the vertex it used", "statement": "For every non-empty u and every x of the same size, alpha >= 0: x + update_direction lies in the l1 ball, maximises <u, .> over it, equals alpha*sign*e_idx for the returned representation (sign, idx), and the returned max step is 1.", "quantifier": "all sizes, u, x, alpha >= 0, including u = 0 and ties", "why_tests_cant": "Random tests sample a measure-zero part of the input space; the claim is about every input (including ties, boundaries and degenerate inputs).", "anchors": ["copt/constraint.py:L1Ball.lmo"]}
{"id": "C06", "title": "L1Ball.lmo_pairwise returns s - v with v the worst active vertex and its weight as maximal step", "statement": "For every non-empty active set, the direction is s - v where s is the FW vertex, v is a vertex of the active set with minimal correlation with u, and max_step_size is exactly v's weight; an empty active set raises ValueError.", "quantifier": "all u, x, active sets", "why_tests_cant": "Random tests sample a measure-zero part of the input space; the claim is about every input (including ties, boundaries and degenerate inputs).", "anchors": ["copt/constraint.py:L1Ball.lmo_pairwise"]}
{"id": "C07", "title": "SimplexConstraint.lmo returns a direction to a feasible maximiser", "statement": "For every u, x: x + update_direction is a point of {v >= 0, ||v||_1 <= s} maximising <u, v>.", "quantifier": "all u, x, s >= 0", "why_tests_cant": "Random tests sample a measure-zero part of the input space; the claim is about every input (including ties, boundaries and degenerate inputs).", "anchors": ["copt/constraint.py:SimplexConstraint.lmo"]}
{"id": "C08", "title": "TraceBall.prox / lmo: nuclear-norm ball projection and linear maximisation", "statement": "Given any valid singular value decomposition of the reshaped argument, TraceBall(alpha, shape).prox(x) has nuclear norm at most alpha and is the nearest such matrix; given any top singular pair, lmo's vertex lies in the ball and maximises <u, .> over it.", "quantifier": "all shapes, matrices, alpha > 0, all valid SVDs", "why_tests_cant": "Random tests sample a measure-zero part of the input space; the claim is about every input (including ties, boundaries and degenerate inputs).", "anchors": ["copt/constraint.py:TraceBall.prox", "copt/constraint.py:TraceBall.lmo"]}
{"id": "C09", "title": "L1Norm.prox is the proximal operator of its own penalty", "statement": "For every x and alpha*step >= 0 the result minimises step*penalty(y) + 0.5*||y-x||^2 over all y, where penalty is the object's __call__; the minimiser is unique.", "quantifier": "all sizes, x, alpha, step with alpha*step >= 0, step>0", "why_tests_cant": "Random tests sample a measure-zero part of the input space; the claim is about every input (including ties, boundaries and degenerate inputs).", "anchors": ["copt/penalty.py:L1Norm.prox", "copt/penalty.py:L1Norm.__call__"]}
{"id": "C10", "title": "GroupL1: accepted groups are disjoint and contiguous, and prox is the proximal operator of its penalty", "statement": "Every group list the constructor accepts has groups that are contiguous ranges, pairwise disjoint and increasing; for those, prox(x, step) minimises step*penalty(y) + 0.5*||y-x||^2 and leaves coordinates outside all groups unchanged.", "quantifier": "all group lists, x, alpha >= 0, step > 0", "why_tests_cant": "Random tests sample a measure-zero part of the input space; the claim is about every input (including ties, boundaries and degenerate inputs).", "anchors": ["copt/penalty.py:GroupL1.__init__", "copt/penalty.py:GroupL1.prox", "copt/penalty.py:GroupL1.__call__"]}
{"id": "C11", "title": "GroupL1.prox_factory: blocks partition the features and the sparse prox agrees with the dense prox", "statement": "For every accepted group list within n_features, the returned block matrix has one row per group (marked +1) and one singleton row per uncovered feature (marked -1), rows being consecutive ranges that partition 0..n_features-1; the returned sparse prox only changes features of the blocks it is told to visit and on each of them equals the dense group soft-threshold with step scaled by d; visiting all blocks with d=1 equals GroupL1.prox.", "quantifier": "all group lists, sizes, sparse patterns, weights d", "why_tests_cant": "Random tests sample a measure-zero part of the input space; the claim is about every input (including ties, boundaries and degenerate inputs).", "anchors": ["copt/penalty.py:GroupL1.prox_factory"]}
{"id": "C12", "title": "L1Norm.prox_factory: sparse prox equals the dense prox on the visited coordinates and changes nothing else", "statement": "For every support row without repeated indices, the sparse prox sets each visited coordinate j to the dense soft-threshold with step d[j]*step and leaves every other coordinate unchanged.", "quantifier": "all x, CSR support, d, step", "why_tests_cant": "Random tests sample a measure-zero part of the input space; the claim is about every input (including ties, boundaries and degenerate inputs).", "anchors": ["copt/penalty.py:L1Norm.prox_factory"]}
{"id": "C13", "title": "FusedLasso.prox_1_factory/prox_2_factory split the penalty exactly", "statement": "For every n_features >= 1 the two block structures each partition the features into pairs and singletons, every consecutive pair (j, j+1) is a penalised block of exactly one of the two, and the sparse update of a penalised block is the exact proximal operator of alpha*|x_j - x_{j+1}| with step d*step; singletons are untouched.", "quantifier": "all n_features >= 1, x, alpha >= 0, step, d >= 0", "why_tests_cant": "Random tests sample a measure-zero part of the input space; the claim is about every input (including ties, boundaries and degenerate inputs).", "anchors": ["copt/penalty.py:FusedLasso.prox_1_factory", "copt/penalty.py:FusedLasso.prox_2_factory"]}
{"id": "C14", "title": "prox_tv1d is the proximal operator of 1-D total variation", "statement": "For every non-empty w and step >= 0, prox_tv1d(w, step) minimises step*sum|x_{i+1}-x_i| + 0.5*||x-w||^2 over all x (uniquely); hence FusedLasso(alpha).prox is the proximal operator of FusedLasso(alpha).", "quantifier": "all lengths, all w, all step >= 0", "why_tests_cant": "Random tests sample a measure-zero part of the input space; the claim is about every input (including ties, boundaries and degenerate inputs).", "anchors": ["copt/tv_prox.py:prox_tv1d", "copt/tv_prox.py:_prox_tv1d", "copt/penalty.py:FusedLasso.prox"]}
{"id": "C15", "title": "prox_tv1d never indexes out of bounds, writes every output entry, never divides by zero and terminates", "statement": "For every non-empty input, every array access of the taut-string routine is within bounds, every division is by a positive index difference, every entry of the (uninitialised) output is written, and all its while-loops terminate.", "quantifier": "all lengths >= 1, all inputs, all step (any sign)", "why_tests_cant": "Random tests sample a measure-zero part of the input space; the claim is about every input (including ties, boundaries and degenerate inputs). Compiled numba code performs no bounds checks, so a violation is silent.", "anchors": ["copt/tv_prox.py:_prox_tv1d"]}
{"id": "C16", "title": "prox_tv2d returns an approximate 2-D TV prox whenever it does not warn", "statement": "Whenever prox_tv2d returns without a warning its result x satisfies, for every z, step*TV(x)+0.5||x-w||^2 <= step*TV(z)+0.5||z-w||^2 + c*tol with an explicit c depending only on sizes and step.", "quantifier": "all sizes, inputs, step >= 0, tol, max_iter", "why_tests_cant": "The claim ranges over every sequence of iterations/samples of every length; a test run exercises one history.", "anchors": ["copt/tv_prox.py:c_prox_tv2d", "copt/tv_prox.py:prox_tv2d", "copt/penalty.py:TotalVariation2D.prox"]}
{"id": "C17", "title": "tv2d_linear_operator L satisfies ||L x||_1 = 2-D TV of x", "statement": "For all n_rows, n_cols and images x, the l1 norm of L x equals TotalVariation2D(1, shape)(x).", "quantifier": "all shapes, all x", "why_tests_cant": "Random tests sample a measure-zero part of the input space; the claim is about every input (including ties, boundaries and degenerate inputs).", "anchors": ["copt/tv_prox.py:tv2d_linear_operator", "copt/penalty.py:TotalVariation2D.__call__"]}
{"id": "C18", "title": "TraceNorm.prox is the proximal operator of the nuclear norm", "statement": "Given any valid SVD of the reshaped argument, TraceNorm(alpha, shape).prox(x, step) minimises step*alpha*||Y||_nuc + 0.5||Y-X||_F^2.", "quantifier": "all shapes, matrices, valid SVDs, alpha*step >= 0", "why_tests_cant": "Random tests sample a measure-zero part of the input space; the claim is about every input (including ties, boundaries and degenerate inputs).", "anchors": ["copt/penalty.py:TraceNorm.prox"]}
{"id": "C19", "title": "LogLoss value is the documented logistic loss up to an explicit tiny error", "statement": "For every A, b in [0,1], alpha, x, the value returned by f_grad/__call__ differs from -(1/n) sum [b_i log sigma(a_i x) + (1-b_i) log(1-sigma(a_i x))] + alpha/2 ||x||^2 by at most exp(-33) (exactly equal when all margins are in [-18, 37)).", "quantifier": "all sizes, A, b, x, alpha", "why_tests_cant": "Random tests sample a measure-zero part of the input space; the claim is about every input (including ties, boundaries and degenerate inputs).", "anchors": ["copt/loss.py:LogLoss.logsig", "copt/loss.py:LogLoss.f_grad"]}
{"id": "C20", "title": "LogLoss gradient is the exact gradient of the documented loss", "statement": "For every x and coordinate j, the j-th gradient entry is the partial derivative at x of the documented logistic loss, in both sign branches; expit_b equals sigmoid(x)-b.", "quantifier": "all sizes, A, b, alpha, x, coordinates", "why_tests_cant": "Random tests sample a measure-zero part of the input space; the claim is about every input (including ties, boundaries and degenerate inputs).", "anchors": ["copt/loss.py:LogLoss.expit_b", "copt/loss.py:LogLoss.f_grad"]}
{"id": "C21", "title": "SquareLoss value and gradient", "statement": "For every A, b, alpha, x: value = 1/(2n)||Ax-b||^2 + alpha/2||x||^2, __call__ and f_grad(.., False) agree with f_grad(..)[0], and the gradient is its exact gradient.", "quantifier": "all sizes, data, x", "why_tests_cant": "Random tests sample a measure-zero part of the input space; the claim is about every input (including ties, boundaries and degenerate inputs).", "anchors": ["copt/loss.py:SquareLoss.f_grad", "copt/loss.py:SquareLoss.__call__"]}
{"id": "C22", "title": "HuberLoss value and gradient are consistent across the kink", "statement": "For delta > 0 the value is the mean Huber function plus ridge and the returned gradient is its exact gradient at every x, including residuals exactly at +-delta.", "quantifier": "all sizes, data, x, delta > 0", "why_tests_cant": "Random tests sample a measure-zero part of the input space; the claim is about every input (including ties, boundaries and degenerate inputs).", "anchors": ["copt/loss.py:HuberLoss.f_grad"]}
{"id": "C23", "title": "lipschitz is a Lipschitz constant of the gradient", "statement": "Given s the largest singular value of A, obj.lipschitz bounds ||grad(x)-grad(y)||/||x-y|| for LogLoss (0.25 s^2/n + alpha), SquareLoss and HuberLoss (s^2/n + alpha); LogLoss/SquareLoss max_lipschitz bounds it per sample.", "quantifier": "all data, all pairs x, y, alpha >= 0", "why_tests_cant": "Random tests sample a measure-zero part of the input space; the claim is about every input (including ties, boundaries and degenerate inputs).", "anchors": ["copt/loss.py:LogLoss.lipschitz", "copt/loss.py:SquareLoss.lipschitz", "copt/loss.py:HuberLoss.lipschitz", "copt/loss.py:LogLoss.max_lipschitz"]}
{"id": "C24", "title": "LogLoss.hessian_mv is the derivative of the gradient", "statement": "For every x, s: hessian_mv(x)(s) equals the directional derivative of f_grad(.)[1] at x along s.", "quantifier": "all data, alpha, x, s", "why_tests_cant": "Random tests sample a measure-zero part of the input space; the claim is about every input (including ties, boundaries and degenerate inputs).", "anchors": ["copt/loss.py:LogLoss.hessian_mv"]}
{"id": "C25", "title": "LogLoss accepts exactly labels in [0,1] of matching size", "statement": "The constructor raises ValueError iff some label is outside [0,1] or the number of labels differs from the number of rows of A (for non-empty real-valued b).", "quantifier": "all A shapes, all b", "why_tests_cant": "Random tests sample a measure-zero part of the input space; the claim is about every input (including ties, boundaries and degenerate inputs).", "anchors": ["copt/loss.py:LogLoss.__init__"]}
{"id": "C26", "title": "partial_deriv is consistent with f_grad", "statement": "The averaged per-sample derivatives partial_deriv(a_i x, b_i) a_i plus alpha x equal the gradient of f_grad, for LogLoss and SquareLoss; for LogLoss the parallel loop gives the same result under every schedule of its iterations.", "quantifier": "all data, x, schedules", "why_tests_cant": "Random tests sample a measure-zero part of the input space; the claim is about every input (including ties, boundaries and degenerate inputs).", "anchors": ["copt/loss.py:LogLoss.partial_deriv", "copt/loss.py:SquareLoss.partial_deriv"]}
{"id": "C27", "title": "build_func_grad honours its documented jac modes", "statement": "jac callable: returns (fun(x), jac(x)); jac=True: fun returns the pair; jac='2-point' or False: the gradient is a finite-difference estimate of a scalar fun.", "quantifier": "all jac values, fun, x", "why_tests_cant": "Random tests sample a measure-zero part of the input space; the claim is about every input (including ties, boundaries and degenerate inputs).", "anchors": ["copt/utils.py:build_func_grad"]}
{"id": "C28", "title": "safe_sparse_add returns the elementwise sum with the shape of its operands", "statement": "For a 2-D column (or row) sparse operand and a 1-D dense operand of the same number of entries the result is their elementwise sum with that many entries, whichever operand is sparse.", "quantifier": "all sizes, sparse/dense combinations", "why_tests_cant": "Random tests sample a measure-zero part of the input space; the claim is about every input (including ties, boundaries and degenerate inputs).", "anchors": ["copt/utils.py:safe_sparse_add"]}
{"id": "C29", "title": "sample_batches is schedule independent and yields batches without repetition", "statement": "Under every interleaving of the parallel loop iterations the result is the concatenation of the drawn batches; every batch has batch_size distinct indices below n_samples.", "quantifier": "all n_batches, batch sizes, random draws, schedules of writes", "why_tests_cant": "The claim ranges over every sequence of iterations/samples of every length; a test run exercises one history.", "anchors": ["copt/utils.py:sample_batches"]}
{"id": "C30", "title": "fast_csr_mv / fast_csr_vm compute M[idx] x and x M[idx]", "statement": "For every well-formed CSR triple (duplicates and empty rows allowed) and index list, the results are the dense matrix products with the represented matrix; all accesses are in bounds.", "quantifier": "all CSR matrices, index lists (repetitions allowed), vectors", "why_tests_cant": "Random tests sample a measure-zero part of the input space; the claim is about every input (including ties, boundaries and degenerate inputs).", "anchors": ["copt/utils.py:fast_csr_mv", "copt/utils.py:fast_csr_vm"]}
{"id": "C31", "title": "Trace records exactly every freq-th call, by value", "statement": "After any sequence of calls, the k-th recorded entry is f(x) (or a copy of x) at call number k*freq, trace_time/trace_step_size/trace_fx (or trace_x) have the same length ceil(calls/freq), and later in-place changes of the solver's array do not alter recorded iterates.", "quantifier": "all call histories, freq >= 1, in-place mutations between calls", "why_tests_cant": "The claim ranges over every sequence of iterations/samples of every length; a test run exercises one history.", "anchors": ["copt/utils.py:Trace"]}
{"id": "C32", "title": "init_lipschitz returns the first power-of-ten estimate giving non-increase", "statement": "The result is 1e-3*10^k where k <= 100 is the smallest number for which f(x0 - grad/L) <= f(x0), or k = 100 if there is none; it is always positive.", "quantifier": "all f, x0", "why_tests_cant": "Random tests sample a measure-zero part of the input space; the claim is about every input (including ties, boundaries and degenerate inputs).", "anchors": ["copt/utils.py:init_lipschitz"]}
{"id": "C33", "title": "minimize_proximal_gradient: success means the last gradient-mapping certificate is below tol", "statement": "Whenever result.success is True the returned certificate is < tol and equals ||x_prev - x||/step for the last iteration's x_prev and step with x the returned point produced by the prox step from x_prev; otherwise the loop ended through the callback or the iteration limit.", "quantifier": "all f, prox, step strategies, callbacks, tol, any run length, any arithmetic (incl. NaN)", "why_tests_cant": "The claim ranges over every sequence of iterations/samples of every length; a test run exercises one history.", "anchors": ["copt/proximal_gradient.py:minimize_proximal_gradient"]}
{"id": "C34", "title": "minimize_proximal_gradient terminates and respects max_iter", "statement": "For integer max_iter the solver always terminates, result.nit <= max_iter, and at most max_iter iterations are performed.", "quantifier": "all f, prox, steps, callbacks", "why_tests_cant": "The claim ranges over every sequence of iterations/samples of every length; a test run exercises one history.", "anchors": ["copt/proximal_gradient.py:minimize_proximal_gradient"]}
{"id": "C35", "title": "minimize_proximal_gradient: callback returning False stops immediately", "statement": "If the callback returns False the returned x is exactly the x shown to that callback, no further callback or function evaluation happens, and success is False.", "quantifier": "all callbacks (arbitrary stateful), all histories", "why_tests_cant": "The claim ranges over every sequence of iterations/samples of every length; a test run exercises one history.", "anchors": ["copt/proximal_gradient.py:minimize_proximal_gradient"]}
{"id": "C36", "title": "backtracking proximal gradient never increases the objective", "statement": "With prox the exact proximal operator of a convex g and step='backtracking', if no line search was exhausted then f+g is non-increasing along all iterates, with decrease at least ||x_{k+1}-x_k||^2/(2 s_k).", "quantifier": "all f, convex g, x0, run lengths", "why_tests_cant": "The claim ranges over every sequence of iterations/samples of every length; a test run exercises one history.", "anchors": ["copt/proximal_gradient.py:minimize_proximal_gradient"]}
{"id": "C37", "title": "backtracking proximal gradient converges at rate 1/(sum of steps)", "statement": "For convex differentiable f and convex g, along every run without line-search exhaustion, F(x_N)-F(x*) <= ||x_0-x*||^2 / (2 sum of prox steps); with an L-smooth f the line search never needs a step below min(first step, 0.6/L).", "quantifier": "all convex f, g, x0, N, comparison points x*", "why_tests_cant": "The claim ranges over every sequence of iterations/samples of every length; a test run exercises one history.", "anchors": ["copt/proximal_gradient.py:minimize_proximal_gradient"]}
{"id": "C38", "title": "returned certificate bounds the distance to stationarity at the returned point", "statement": "When the non-accelerated solver succeeds, there is a subgradient of f+g at the returned point whose norm is at most (certificate*1.1 + L*distance moved), in particular a zero certificate means the point minimises f+g (convex f, g).", "quantifier": "all convex f, g, runs", "why_tests_cant": "The claim ranges over every sequence of iterations/samples of every length; a test run exercises one history.", "anchors": ["copt/proximal_gradient.py:minimize_proximal_gradient"]}
{"id": "C39", "title": "invalid step strategies are rejected", "statement": "Any step argument that is neither callable nor a supported string raises an error instead of returning the starting point as a result.", "quantifier": "all step values, both accelerated settings", "why_tests_cant": "Random tests sample a measure-zero part of the input space; the claim is about every input (including ties, boundaries and degenerate inputs).", "anchors": ["copt/proximal_gradient.py:minimize_proximal_gradient"]}
{"id": "C40", "title": "accelerated variant: success/iteration/callback contract", "statement": "With accelerated=True: success implies certificate < tol, nit <= max_iter, termination, and a callback returning False stops at once with the x it was shown.", "quantifier": "all f, prox, step strategies, callbacks, runs", "why_tests_cant": "The claim ranges over every sequence of iterations/samples of every length; a test run exercises one history.", "anchors": ["copt/proximal_gradient.py:minimize_proximal_gradient"]}
{"id": "C41", "title": "Frank-Wolfe iterates stay in the constraint set", "statement": "If the domain is convex, x0 is in it and lmo returns s - x with s in the domain and max step 1, then every iterate and the result are in the domain for step in {backtracking, DR, sublinear}.", "quantifier": "all convex domains, f, lmo, run lengths, callbacks", "why_tests_cant": "The claim ranges over every sequence of iterations/samples of every length; a test run exercises one history.", "anchors": ["copt/frank_wolfe.py:minimize_frank_wolfe", "copt/frank_wolfe.py:backtracking_step_size"]}
{"id": "C42", "title": "the FW certificate bounds suboptimality", "statement": "For convex differentiable f and an exact lmo, at every iteration certificate >= f(x)-f(y) for every y in the domain; in particular a run stopped by tol returns x with f(x)-f* <= tol.", "quantifier": "all convex f, domains, runs", "why_tests_cant": "The claim ranges over every sequence of iterations/samples of every length; a test run exercises one history.", "anchors": ["copt/frank_wolfe.py:minimize_frank_wolfe"]}
{"id": "C43", "title": "backtracking_step_size contract", "statement": "The step returned is at most max_step_size; unless all 100 trials were exhausted, the sufficient decrease condition holds for the returned step and Lipschitz estimate; the estimate is never below 0.9 of the input and f_next, grad_next are the evaluations at the returned step.", "quantifier": "all f, inputs", "why_tests_cant": "Random tests sample a measure-zero part of the input space; the claim is about every input (including ties, boundaries and degenerate inputs).", "anchors": ["copt/frank_wolfe.py:backtracking_step_size"]}
{"id": "C44", "title": "backtracking Frank-Wolfe is a descent method up to EPS", "statement": "With step='backtracking', positive Lipschitz estimate and non-exhausted searches, f(x_k) <= f(x_0) + k*EPS for every k.", "quantifier": "all f, lmo, runs", "why_tests_cant": "The claim ranges over every sequence of iterations/samples of every length; a test run exercises one history.", "anchors": ["copt/frank_wolfe.py:minimize_frank_wolfe", "copt/frank_wolfe.py:backtracking_step_size"]}
{"id": "C45", "title": "pairwise Frank-Wolfe: active set is a convex decomposition of the iterate", "statement": "With variant='pairwise' and L1Ball.lmo_pairwise, at every iteration the weights of active_set are >= 0 and sum to 1 and the iterate equals the weighted sum of the represented vertices; hence the iterate stays in the ball. A step exceeding the away weight raises ValueError.", "quantifier": "all f, alpha, start vertices, step rules, runs", "why_tests_cant": "The claim ranges over every sequence of iterations/samples of every length; a test run exercises one history.", "anchors": ["copt/frank_wolfe.py:update_active_set", "copt/frank_wolfe.py:minimize_frank_wolfe", "copt/constraint.py:L1Ball.lmo_pairwise"]}
{"id": "C46", "title": "drop steps remove the away vertex from the active set", "statement": "After update_active_set with step equal to the away vertex's weight, the away vertex is no longer a key of the active set (so that later iterations cannot select a zero-weight away vertex and stall).", "quantifier": "all active sets, vertices", "why_tests_cant": "Random tests sample a measure-zero part of the input space; the claim is about every input (including ties, boundaries and degenerate inputs).", "anchors": ["copt/frank_wolfe.py:update_active_set"]}
{"id": "C47", "title": "Frank-Wolfe converges at rate O(1/k)", "statement": "For convex f with curvature constant C on a domain and exact lmo, with sublinear step f(x_k)-f(y) <= 2C/(k+2) for all k>=1 and y in the domain; the same holds with step='DR' and a valid lipschitz.", "quantifier": "all f, domains, k", "why_tests_cant": "The claim ranges over every sequence of iterations/samples of every length; a test run exercises one history.", "anchors": ["copt/frank_wolfe.py:minimize_frank_wolfe"]}
{"id": "C48", "title": "minimize_frank_wolfe argument validation and callback", "statement": "tol < 0, unknown variant, unknown step and step='DR' without lipschitz raise ValueError; a callback returning False stops before x is updated.", "quantifier": "all arguments, callbacks", "why_tests_cant": "Random tests sample a measure-zero part of the input space; the claim is about every input (including ties, boundaries and degenerate inputs).", "anchors": ["copt/frank_wolfe.py:minimize_frank_wolfe"]}
{"id": "C49", "title": "the certificate returned by minimize_frank_wolfe is the FW gap at the returned x", "statement": "result.certificate = <-grad f(x), s - x> at the returned x.", "quantifier": "all runs", "why_tests_cant": "The claim ranges over every sequence of iterations/samples of every length; a test run exercises one history.", "anchors": ["copt/frank_wolfe.py:minimize_frank_wolfe"]}
{"id": "C50", "title": "three-operator splitting: success certifies approximate optimality", "statement": "If minimize_three_split reports success, then there are z, u with u a subgradient of h at z and v a subgradient of g at the returned x with ||grad f(z)+u+v|| < tol and ||x - z|| < tol*step; zero certificate means x minimises f+g+h.", "quantifier": "all f, convex g, h, runs, step/line-search settings", "why_tests_cant": "The claim ranges over every sequence of iterations/samples of every length; a test run exercises one history.", "anchors": ["copt/splitting.py:minimize_three_split"]}
{"id": "C51", "title": "three-operator splitting line search and step-size contract", "statement": "Without h_Lipschitz the step size never increases and stays positive; the accepted x satisfies the sufficient decrease inequality (up to machine eps) unless the search was exhausted; nit < max_iter; callback False stops.", "quantifier": "all f, prox, runs", "why_tests_cant": "The claim ranges over every sequence of iterations/samples of every length; a test run exercises one history.", "anchors": ["copt/splitting.py:minimize_three_split"]}
{"id": "C52", "title": "primal-dual: fixed points are solutions", "statement": "If an iteration of minimize_primal_dual leaves (x, y) unchanged then x minimises f + g + h(L .); with small increments the optimality residual is bounded by them.", "quantifier": "all convex f, g, h, linear L, step sizes", "why_tests_cant": "Random tests sample a measure-zero part of the input space; the claim is about every input (including ties, boundaries and degenerate inputs).", "anchors": ["copt/splitting.py:minimize_primal_dual"]}
{"id": "C53", "title": "primal-dual: success means the last increment is below tol", "statement": "If minimize_primal_dual reports success then the increments of x and y in the last performed iteration sum to less than tol, and result.certificate is that sum.", "quantifier": "all runs", "why_tests_cant": "The claim ranges over every sequence of iterations/samples of every length; a test run exercises one history.", "anchors": ["copt/splitting.py:minimize_primal_dual"]}
{"id": "C54", "title": "primal-dual and three-split warn or flag non-convergence", "statement": "When max_iter is reached without meeting tol, success is False and (primal-dual) a RuntimeWarning is issued.", "quantifier": "all runs", "why_tests_cant": "The claim ranges over every sequence of iterations/samples of every length; a test run exercises one history.", "anchors": ["copt/splitting.py:minimize_primal_dual"]}
{"id": "C55", "title": "extended support matrix", "statement": "For every CSR pattern and block map, row i of the support matrix lists exactly the blocks containing some feature in the support of sample i, each once, in order of first occurrence; all writes are in bounds.", "quantifier": "all CSR patterns (duplicates, empty rows), block maps", "why_tests_cant": "Random tests sample a measure-zero part of the input space; the claim is about every input (including ties, boundaries and degenerate inputs).", "anchors": ["copt/randomized.py:_support_matrix"]}
{"id": "C56", "title": "diagonal reweighting is unbiased", "statement": "For every block h touched by at least one sample, (1/n) sum over samples touching h of d[h] = 1; untouched blocks within range get d = 1.", "quantifier": "all patterns", "why_tests_cant": "Random tests sample a measure-zero part of the input space; the claim is about every input (including ties, boundaries and degenerate inputs).", "anchors": ["copt/randomized.py:minimize_saga", "copt/randomized.py:minimize_svrg", "copt/randomized.py:_factory_sparse_vrtos"]}
{"id": "C57", "title": "SAGA memory: the running average is the average of the stored gradients", "statement": "After any sequence of sample indices, gradient_average = (1/n) sum_i memory_gradient[i]*A_i, the scratch vector is zero, and memory_gradient[i] is the loss derivative at the iterate of the last visit of i.", "quantifier": "all data, index sequences, prox, step sizes", "why_tests_cant": "The claim ranges over every sequence of iterations/samples of every length; a test run exercises one history.", "anchors": ["copt/randomized.py:minimize_saga"]}
{"id": "C58", "title": "SAGA direction is an unbiased estimate of the gradient", "statement": "In every state reachable by any index history, averaging the update direction used for sample i over all samples gives exactly the gradient of the smooth objective on every feature of a touched block.", "quantifier": "all reachable states, data, blocks", "why_tests_cant": "The claim ranges over every sequence of iterations/samples of every length; a test run exercises one history.", "anchors": ["copt/randomized.py:minimize_saga"]}
{"id": "C59", "title": "SAGA/SVRG only touch, and fully treat, the features they must", "statement": "A sample's update changes only features in the blocks of its extended support; (claim users rely on) the returned point satisfies optimality for all features, including those that appear in no sample when alpha > 0 or a penalty is given.", "quantifier": "all data, histories", "why_tests_cant": "The claim ranges over every sequence of iterations/samples of every length; a test run exercises one history.", "anchors": ["copt/randomized.py:minimize_saga", "copt/randomized.py:minimize_svrg"]}
{"id": "C60", "title": "SVRG direction is an unbiased variance-reduced estimate", "statement": "For every snapshot and every inner history, the update direction for sample i is (f_i'(x)-f_i'(snapshot))a_i on its blocks plus the reweighted full gradient, so its average over i is the gradient at x.", "quantifier": "all data, block structures, inner histories", "why_tests_cant": "The claim ranges over every sequence of iterations/samples of every length; a test run exercises one history.", "anchors": ["copt/randomized.py:minimize_svrg"]}
{"id": "C61", "title": "VRTOS memory invariant and averaging", "statement": "After any sample history gradient_average is the average of stored gradients and on every touched feature z is the (1/d)-weighted average of the two auxiliary sequences.", "quantifier": "all data, block structures, histories", "why_tests_cant": "The claim ranges over every sequence of iterations/samples of every length; a test run exercises one history.", "anchors": ["copt/randomized.py:_factory_sparse_vrtos", "copt/randomized.py:minimize_vrtos"]}
{"id": "C62", "title": "VRTOS index safety", "statement": "Every index into the reweighting vectors during an epoch is in bounds for every data matrix and pair of block structures (numba performs no bounds checks).", "quantifier": "all data matrices, block structures", "why_tests_cant": "Random tests sample a measure-zero part of the input space; the claim is about every input (including ties, boundaries and degenerate inputs).", "anchors": ["copt/randomized.py:_factory_sparse_vrtos"]}
{"id": "C63", "title": "VRTOS does not modify its inputs and honours tol", "statement": "minimize_vrtos leaves the caller's x0 unchanged and stops with success=True once the certificate is below tol.", "quantifier": "all inputs", "why_tests_cant": "The claim ranges over every sequence of iterations/samples of every length; a test run exercises one history.", "anchors": ["copt/randomized.py:minimize_vrtos"]}
{"id": "C64", "title": "SFW aggregate gradient is consistent with the dual variables", "statement": "For every variant and every sequence of batches of distinct indices, grad_agg = sum_i dual_var[i]*A_i after every step; for SAG/SAGA dual_var[i] = f'(a_i x)/n at the last visit of i.", "quantifier": "all data, variants, batch histories", "why_tests_cant": "The claim ranges over every sequence of iterations/samples of every length; a test run exercises one history.", "anchors": ["copt/randomized.py:minimize_sfw"]}
{"id": "C65", "title": "SFW iterates stay in the constraint set", "statement": "With a convex domain, x0 in it and vanilla lmo, every iterate of every variant is in the domain, for sublinear and DR steps.", "quantifier": "all data, variants, batch histories, domains", "why_tests_cant": "The claim ranges over every sequence of iterations/samples of every length; a test run exercises one history.", "anchors": ["copt/randomized.py:minimize_sfw", "copt/randomized.py:step_size_sfw", "copt/randomized.py:step_size_DR"]}
{"id": "C66", "title": "SFW stops when successive iterates differ by less than tol", "statement": "As soon as the l1 distance between successive iterates is below tol the solver returns, with success=True and that iterate.", "quantifier": "all runs", "why_tests_cant": "The claim ranges over every sequence of iterations/samples of every length; a test run exercises one history.", "anchors": ["copt/randomized.py:minimize_sfw"]}
{"id": "C67", "title": "SFW step-size rules lie in (0,1]", "statement": "For all variants and all step counters the sublinear x-step is in (0,1] and the aggregation step (MHK, LF) is in (0,1].", "quantifier": "all t >= 0, n_samples >= batch_size >= 1", "why_tests_cant": "Random tests sample a measure-zero part of the input space; the claim is about every input (including ties, boundaries and degenerate inputs).", "anchors": ["copt/randomized.py:step_size_sfw"]}
{"id": "C68", "title": "SFW 'SAGA' estimator is unbiased", "statement": "Averaged over all batches of the chosen size, the SAGA gradient estimate equals the full gradient.", "quantifier": "all states, data, batch sizes", "why_tests_cant": "The claim ranges over every sequence of iterations/samples of every length; a test run exercises one history.", "anchors": ["copt/randomized.py:minimize_sfw"]}
{"id": "C69", "title": "SAGA/SVRG success contract", "statement": "success=True implies the l1 change over the last epoch is < tol, nit < max_iter, and the caller's x0 is not modified.", "quantifier": "all runs", "why_tests_cant": "The claim ranges over every sequence of iterations/samples of every length; a test run exercises one history.", "anchors": ["copt/randomized.py:minimize_saga", "copt/randomized.py:minimize_svrg"]}
{"id": "C70", "title": "dataset loading recovers from interruption", "statement": "If a first call is interrupted at any point (crash during download or extraction), a later uninterrupted call succeeds and returns the complete dataset.", "quantifier": "all crash points", "why_tests_cant": "A crash can happen between any two file operations.", "anchors": ["copt/datasets.py:_load_dataset"]}
{"id": "C71", "title": "loaders return the dataset they are named after", "statement": "load_kdd12/load_url/load_kdd10/load_criteo return the named dataset even when the first download fails its md5 check; labels of load_url/load_kdd12 are in {0,1}.", "quantifier": "all download outcomes", "why_tests_cant": "The claim ranges over every sequence of iterations/samples of every length; a test run exercises one history.", "anchors": ["copt/datasets.py:load_kdd12", "copt/datasets.py:load_url"]}
{"id": "C72", "title": "subset semantics", "statement": "subset='train'/'test'/'full' return the train part, test part and their row concatenation (train first); any other value raises ValueError.", "quantifier": "all datasets, subset strings", "why_tests_cant": "Random tests sample a measure-zero part of the input space; the claim is about every input (including ties, boundaries and degenerate inputs).", "anchors": ["copt/datasets.py:_load_dataset"]}
{"id": "C73", "title": "proximal gradient: stored value and gradient belong to the current iterate", "statement": "At every iteration of the non-accelerated solver the value and gradient used are fun and jac evaluated at the current iterate.", "quantifier": "all objectives, prox maps, step rules, callbacks", "why_tests_cant": "The claim ranges over every sequence of iterations/samples of every length; a test run exercises one history.", "anchors": ["copt/proximal_gradient.py:minimize_proximal_gradient"]}
{"id": "C74", "title": "accelerated proximal gradient converges like 1/k^2", "statement": "For convex f and g and steps that satisfy the sufficient-decrease test and never increase, the returned point of the accelerated solver is within 2|x0-x*|^2/(s(k+1)^2) of the optimal value after k iterations.", "quantifier": "all convex problems, dimensions, iteration counts", "why_tests_cant": "The claim ranges over every sequence of iterations/samples of every length; a test run exercises one history.", "anchors": ["copt/proximal_gradient.py:minimize_proximal_gradient"]}
{"id": "C75", "title": "accelerated proximal gradient: success means near-stationarity of the returned point", "statement": "success=True of the accelerated solver implies that the gradient mapping at the returned x is below tol (up to a small constant).", "quantifier": "all runs", "why_tests_cant": "The claim ranges over every sequence of iterations/samples of every length; a test run exercises one history.", "anchors": ["copt/proximal_gradient.py:minimize_proximal_gradient"]}
{"id": "C76", "title": "parse_step_size classifies its argument", "statement": "A number is a fixed step, a pair (value, rule) is returned as is, a callable or 'adaptive' starts at 1, anything else raises ValueError.", "quantifier": "all argument values", "why_tests_cant": "Random tests sample a measure-zero part of the input space; the claim is about every input (including ties, boundaries and degenerate inputs).", "anchors": ["copt/utils.py:parse_step_size"]}
{"id": "C77", "title": "the library's own linear minimisation oracles work with minimize_frank_wolfe", "statement": "The lmo methods of L1Ball and SimplexConstraint can be passed to minimize_frank_wolfe: the calls succeed and return s - x with s a maximiser of <u,s> over the set.", "quantifier": "all vectors, radii and runs", "why_tests_cant": "Random tests sample a measure-zero part of the input space; the claim is about every input (including ties, boundaries and degenerate inputs).", "anchors": ["copt/frank_wolfe.py:minimize_frank_wolfe", "copt/constraint.py:SimplexConstraint.lmo", "copt/constraint.py:L1Ball.lmo"]}
{"id": "C78", "title": "three-operator splitting converges with a fixed step below 2/L", "statement": "For convex f with L-Lipschitz gradient, convex g and h, a solution with a multiplier, and a fixed step s with s*L < 2, every tolerance tol > 0 is met: the run succeeds once max_iter exceeds an explicit bound.", "quantifier": "all convex problems, dimensions, starting points, tolerances", "why_tests_cant": "The claim ranges over every sequence of iterations/samples of every length; a test run exercises one history.", "anchors": ["copt/splitting.py:minimize_three_split"]}
{"id": "C79", "title": "the primal-dual line search accepts only stable steps", "statement": "Every step accepted by the line search of minimize_primal_dual satisfies the Malitsky-Pock condition s*t*|L d|^2 + 2 s D_f <= |d|^2, so the iterates stay bounded.", "quantifier": "all problems, linear operators, runs", "why_tests_cant": "The claim ranges over every sequence of iterations/samples of every length; a test run exercises one history.", "anchors": ["copt/splitting.py:minimize_primal_dual"]}
{"id": "C80", "title": "primal-dual converges with fixed steps under the Condat-Vu condition", "statement": "For convex f with Lf-Lipschitz gradient, convex g and h, |L| <= M and (1/sigma - Lf/2)/tau > M^2, every tol > 0 is met by minimize_primal_dual without line search once max_iter exceeds an explicit bound.", "quantifier": "all convex problems with a saddle point, linear operators, tolerances", "why_tests_cant": "The claim ranges over every sequence of iterations/samples of every length; a test run exercises one history.", "anchors": ["copt/splitting.py:minimize_primal_dual"]}
{"id": "C81", "title": "three-operator splitting: the step size stays a positive number", "statement": "With h_Lipschitz given the step size after each update is a positive real number not larger than 1.02 times the accepted step.", "quantifier": "all runs with h_Lipschitz", "why_tests_cant": "The claim ranges over every sequence of iterations/samples of every length; a test run exercises one history.", "anchors": ["copt/splitting.py:minimize_three_split"]}
{"id": "C82", "title": "primal-dual: max_iter_ls bounds the line search", "statement": "The line search of minimize_primal_dual performs at most max_iter_ls rounds per iteration, in particular every call terminates.", "quantifier": "all objectives, including those returning NaN", "why_tests_cant": "The claim ranges over every sequence of iterations/samples of every length; a test run exercises one history.", "anchors": ["copt/splitting.py:minimize_primal_dual"]}
{"id": "C83", "title": "points at which SAGA rests are minimizers", "statement": "If x does not move while SAGA visits every sample twice, x minimises the regularised objective over the features that occur in the data (all of them when every feature occurs), for convex losses and penalties given by a valid sparse prox, in particular the l1 and the group l1 norm.", "quantifier": "all reachable states, data, convex losses, block structures", "why_tests_cant": "The claim ranges over every sequence of iterations/samples of every length; a test run exercises one history.", "anchors": ["copt/randomized.py:minimize_saga"]}
{"id": "C84", "title": "points at which VRTOS rests are minimizers", "statement": "If the memory is up to date and one update of every sample leaves z and both auxiliary sequences unchanged, the iterate minimises f + g + h over the features that occur in the data, in particular for the two halves of FusedLasso.", "quantifier": "all reachable states, data, convex losses, pairs of block structures", "why_tests_cant": "The claim ranges over every sequence of iterations/samples of every length; a test run exercises one history.", "anchors": ["copt/randomized.py:minimize_vrtos", "copt/penalty.py:FusedLasso.prox_1_factory"]}
{"id": "C85", "title": "SAGA and SVRG do not raise", "statement": "On every data matrix with a stored entry, block structure, positive max_iter and permutation, minimize_saga and minimize_svrg return a result: all array accesses are in bounds.", "quantifier": "all data matrices, block structures, runs", "why_tests_cant": "Random tests sample a measure-zero part of the input space; the claim is about every input (including ties, boundaries and degenerate inputs).", "anchors": ["copt/randomized.py:minimize_saga", "copt/randomized.py:minimize_svrg"]}
{"id": "C86", "title": "points at which SVRG rests are minimizers", "statement": "If x does not move while SVRG visits every sample twice within an epoch, x minimises the regularised objective over the features that occur in the data.", "quantifier": "all reachable states, data, convex losses, block structures", "why_tests_cant": "The claim ranges over every sequence of iterations/samples of every length; a test run exercises one history.", "anchors": ["copt/randomized.py:minimize_svrg"]}
{"id": "C87", "title": "prox_tv2d converges", "statement": "For every image, step >= 0 and tol > 0, prox_tv2d stops without a warning whenever max_iter > ||w||^2 / tol^2.", "quantifier": "all sizes, images, step >= 0, tol > 0", "why_tests_cant": "The claim ranges over every sequence of iterations/samples of every length; a test run exercises one history.", "anchors": ["copt/tv_prox.py:c_prox_tv2d"]}
{"id": "C88", "title": "end-to-end rates with the package's own losses", "statement": "Runs of minimize_proximal_gradient with a callable step do not depend on the objective values. Accelerated runs on LogLoss, SquareLoss or HuberLoss with L1Norm.prox and step 1/lipschitz satisfy F(x_k)-F* <= 2 L |x0-x*|^2/(k+1)^2 for the documented objective; Frank-Wolfe on SquareLoss/HuberLoss over the l1 ball satisfies its 1/k bound with L = lipschitz.", "quantifier": "all data, regularisation, starting points, iteration counts", "why_tests_cant": "The claim ranges over every sequence of iterations/samples of every length; a test run exercises one history.", "anchors": ["copt/loss.py", "copt/proximal_gradient.py:minimize_proximal_gradient", "copt/frank_wolfe.py:minimize_frank_wolfe"]}
{"id": "C89", "title": "intercept mode of LogLoss is usable by the solvers", "statement": "With intercept=True f_grad returns the pair (loss, gradient) and lipschitz bounds the variation of that gradient.", "quantifier": "all data, all x", "why_tests_cant": "Random tests sample a measure-zero part of the input space; the claim is about every input (including ties, boundaries and degenerate inputs).", "anchors": ["copt/loss.py:LogLoss.f_grad", "copt/loss.py:LogLoss.lipschitz"]}
{"id": "C90", "title": "full-batch SFW is Frank-Wolfe", "statement": "With variant SAG, sublinear steps and batch_size = n_samples the gradient estimate of every iteration is the gradient of the mean loss, and a run that used all its epochs has F(x)-F(y) <= 2C/(max_iter+2) for every y in the domain.", "quantifier": "all data, convex losses of curvature C, domains, draws", "why_tests_cant": "The claim ranges over every sequence of iterations/samples of every length; a test run exercises one history.", "anchors": ["copt/randomized.py:minimize_sfw"]}
{"id": "C91", "title": "SFW (SAG, one sample per step) converges in mean", "statement": "With variant SAG, sublinear steps, batch_size = 1 and tol <= 0, the mean of F(x_T)-F(y) over all n^T index sequences is at most 2(C + Dinf B)/(T+2), T = n*max_iter, where B depends only on the data, the domain and x0.", "quantifier": "all data, convex smooth losses, bounded domains, max_iter >= 1", "why_tests_cant": "The claim is an average over n^T runs.", "anchors": ["copt/randomized.py:minimize_sfw", "copt/randomized.py:step_size_sfw"]}
{"id": "C92", "title": "proximal gradient converges linearly on strongly convex problems", "statement": "minimize_proximal_gradient (not accelerated) on a mu-strongly convex, L-smooth f plus a convex g multiplies the squared distance to the minimiser by at most 1-mu*m per iteration (m = the fixed step <= 1/L, or the backtracking lower bound), its objective gap after N iterations is at most (1-mu*m)^N |x0-x*|^2/(2m), and with a fixed step it ends with success=True once max_iter satisfies 2 sqrt((1-mu s)^max_iter |x0-x*|^2) < s tol; in particular with SquareLoss, HuberLoss and LogLoss with alpha > 0, L1Norm and step 1/lipschitz the factor is 1-alpha/lipschitz.", "quantifier": "all dimensions, data, starting points, tolerances, iteration counts and callbacks, all convex penalties with an exact prox", "why_tests_cant": "A rate is a statement about every iteration of every run.", "anchors": ["copt/proximal_gradient.py:minimize_proximal_gradient", "copt/loss.py:SquareLoss", "copt/loss.py:HuberLoss", "copt/loss.py:LogLoss", "copt/penalty.py:L1Norm"]}
{"id": "C93", "title": "low-rank problems end to end: TraceBall and TraceNorm inside the solvers", "statement": "On m x n matrix problems with convex L-smooth f: minimize_frank_wolfe with TraceBall.lmo and step DR (m, n >= 2) returns a point of the nuclear ball whose objective is within tol or within 8 L alpha^2/(max_iter+2) of any point of the ball; with min(m, n) <= 1 every run raises ValueError; minimize_proximal_gradient with TraceNorm.prox has rate 1/N (backtracking) and 1/N^2 (accelerated), and with TraceBall.prox returns a point of the ball at rate 1/N.", "quantifier": "all shapes, data, starting points, iteration counts, and all svd/svds routines that return a valid decomposition (leading pair)", "why_tests_cant": "No finite set of matrices covers every shape, objective and decomposition.", "anchors": ["copt/constraint.py:TraceBall.lmo", "copt/constraint.py:TraceBall.prox", "copt/penalty.py:TraceNorm.prox", "copt/frank_wolfe.py:minimize_frank_wolfe", "copt/proximal_gradient.py:minimize_proximal_gradient"]}
{"id": "C94", "title": "make_func_and_grad returns the loss and its gradient in the order of the flat variable", "statement": "For a PyTorch loss whose autograd is right, func_and_grad(x) returns the loss at the reshaped tensor and the gradient with respect to the flat vector x, and func_and_grad(x, return_gradient=False) the same loss; the answers do not depend on the calls made before. view(*shape) succeeds exactly when the request is non-empty, has at most one -1 and exactly one shape with the right number of entries fits; it raises TypeError on an empty shape and RuntimeError otherwise. Integral dtypes, losses that are not scalar or not attached to the graph raise RuntimeError before any gradient changes, and a loss independent of x raises AttributeError. For convex smooth losses Frank-Wolfe on the L1 ball through the wrapper has the usual rate.", "quantifier": "all shapes, all vectors, all loss functions, all sequences of calls; every number type for errors and state, reals for gradients", "why_tests_cant": "there is no test of utils_pytorch.py; examples use one network and one shape", "anchors": ["copt/utils_pytorch.py:make_func_and_grad", "copt/utils_pytorch.py:func_and_grad"]}
{"id": "C95", "title": "evaluating the objective leaves the gradients of other tensors alone", "statement": "Calls of func_and_grad do not change the .grad of the other leaves of the graph (network weights). False: backward() accumulates into them at every call, also when only the value is asked for; after k calls at x the .grad of a weight has grown by k times the gradient of the loss with respect to it. Leaves that are not part of the graph are untouched.", "quantifier": "all loss functions, all shapes, all sequences of calls", "why_tests_cant": "the effect is on tensors the wrapper neither takes nor returns", "anchors": ["copt/utils_pytorch.py:func_and_grad"]}
{"id": "C96", "title": "SVRG with a small step decreases the objective every epoch, whatever the order of the samples", "statement": "minimize_svrg without proximal operators, step_size * n_samples * (L + alpha D) <= 1/4 (L bounds the smoothness of each loss term, every stored feature is stored by at least n/D samples): every epoch decreases the objective by at least step_size n/3 |grad|^2 and moves by between 2/3 and 4/3 of step_size n |grad|; the best recorded point has |grad|^2 of order 1/epochs; with convex losses and alpha > 0 the objective gap shrinks by the factor 1 - 2/3 alpha step_size n per epoch; success=True implies |grad| < 2 tol/(step_size n) at the returned point; and with max_iter large enough (explicit) the solver returns with success=True.", "quantifier": "all CSR matrices with canonical rows, all losses with Lipschitz derivative, all starting points, every sequence of shuffles", "why_tests_cant": "a shuffle-dependent divergence or a wrong weight d[h] shows only for some orders of the samples and some sparsity patterns", "anchors": ["copt/randomized.py:minimize_svrg", "copt/randomized.py:full_grad", "copt/randomized.py:_svrg_epoch"]}
{"id": "C97", "title": "SAGA with a small step converges, whatever the order of the samples", "statement": "minimize_saga without proximal operators, step_size * n_samples * ((2 + D) L + alpha D) <= 1/16: the energy f(x_k) + 2 step_size n w_k^2, where w_k measures the age of the gradient memory (w_0 = (1 + D) max_i |grad f_i(x0)|), decreases every epoch by step_size n/2 (|grad|^2 + w_k^2); the best recorded point has |grad|^2 of order 1/epochs; with convex losses and alpha > 0 the gap shrinks by the factor 1 - alpha step_size n per epoch; with max_iter large enough (explicit) the solver returns with success=True.", "quantifier": "all CSR matrices with canonical rows, all losses with Lipschitz derivative, all starting points, every sequence of shuffles", "why_tests_cant": "a wrong update of the memory or of the average shows only after several epochs and only for some orders", "anchors": ["copt/randomized.py:minimize_saga", "copt/randomized.py:_saga_epoch"]}
{"id": "C98", "title": "success=True of SAGA certifies a small gradient", "statement": "When minimize_saga returns success=True the gradient of the objective at the returned point is small, of order tol/(step_size n). False: the test compares x before and after an epoch, and the steps of an epoch can cancel while the memory is old. For every step size up to 1/100, every tol > 0 and every G there is a two-sample least squares problem where the first epoch returns to x0, success=True and the gradient has norm at least G. Proved: the bound 2 tol/(step_size n) plus 2 (1 + D) times the age of the memory at the start of the last epoch.", "quantifier": "all step sizes up to 1/100, all tolerances, all gradient sizes; the bound: all problems of C97", "why_tests_cant": "needs targets tuned to the step size; random data never cancels exactly", "anchors": ["copt/randomized.py:minimize_saga"]}
{"id": "C99", "title": "SAGA with a sparse proximal operator converges, whatever the order of the samples", "statement": "For an L-smooth finite sum with ridge alpha, a block-separable convex penalty whose operator is a sparse proximal operator of it (L1, group L1), every touched block seen by at least n/D samples and step*D*n*(20L + alpha) <= 1: every recorded iterate has objective at most that of x0 plus 2 G0^2/L, G0 bounding the sample gradients at x0; for convex losses some recorded iterate carries an approximate-optimality certificate w (obj(x) <= obj(z) + <w, z - x> for all z) with |w|^2 = O(1/epochs); with alpha > 0 the objective converges linearly with factor 1 - alpha*step/(14 D); and success is reached within a number of epochs of order step*D*n*d/tol^2.", "quantifier": "all sparse data sets, smooth losses, block structures, convex block penalties, starting points, tolerances, iteration limits and all permutations drawn epoch by epoch", "why_tests_cant": "convergence over unboundedly many epochs for every order of the samples; a test sees one data set and one seed", "anchors": ["copt/randomized.py:minimize_saga", "copt/randomized.py:_saga_epoch", "copt/penalty.py:L1Norm.prox_factory", "copt/penalty.py:GroupL1.prox_factory"]}
{"id": "C100", "title": "SVRG with a sparse proximal operator converges, whatever the order of the samples", "statement": "Under the hypotheses of C99 and when each sample stores a block in full or not at all (always so for blocks of one feature): the objective decreases at every epoch by at least |x_{k+1} - x_k|^2/(4 step D n); for convex losses some recorded iterate carries a certificate of order 1/sqrt(epochs); with alpha > 0 convergence is linear with factor 1 - alpha*step/(14 D); and success is reached within a number of epochs of order step*D*n*d/tol^2.", "quantifier": "all sparse data sets, smooth losses, block structures, convex block penalties, starting points, tolerances, iteration limits and all permutations drawn epoch by epoch", "why_tests_cant": "convergence over unboundedly many epochs for every order of the samples", "anchors": ["copt/randomized.py:minimize_svrg", "copt/randomized.py:_svrg_epoch", "copt/penalty.py:L1Norm.prox_factory"]}
{"id": "C101", "title": "an integer starting point is treated as the same float point", "statement": "minimize_proximal_gradient and minimize_primal_dual started at an array of integers behave as if started at the array of the corresponding floats: in particular success means that the returned point satisfies the certificate.", "quantifier": "all objectives, proximal operators, step strategies, tolerances, iteration limits, and conversions to the element type of x0", "why_tests_cant": "the element type is a property of the caller's array that tests with floats never vary", "anchors": ["copt/proximal_gradient.py:minimize_proximal_gradient", "copt/splitting.py:minimize_primal_dual"]}
{"id": "C102", "title": "minimize_primal_dual depends only on the linear map L", "statement": "Two operators that compute the same linear map give the same run, whether or not matvec returns a newly allocated array.", "quantifier": "all objectives, proximal operators, operators, step sizes, tolerances and iteration limits", "why_tests_cant": "the operators used in tests all allocate their results; the fault shows only after many iterations", "anchors": ["copt/splitting.py:minimize_primal_dual"]}
{"id": "C103", "title": "arrays handed to callbacks keep the iterate they showed", "statement": "An array that a callback of minimize_proximal_gradient received still holds, after the run, the iterate of the time of the call.", "quantifier": "all runs with a callback", "why_tests_cant": "the callbacks in the tests copy or reduce the iterate at once", "anchors": ["copt/proximal_gradient.py:minimize_proximal_gradient"]}
{"id": "C104", "title": "Frank-Wolfe stops: the gap test fires within a known number of iterations on convex problems", "statement": "For a convex L-smooth objective over a convex set of squared diameter D2 and an exact oracle, minimize_frank_wolfe with tol > 0 returns by its gap test, after fewer than 2a iterations whenever max_iter >= 2a, where a*tol > 4C (sublinear step, C the curvature), a*tol > 4*lipschitz*D2 (Demyanov-Rubinov step), or a*tol > 4*max(L0,2L)*D2 + 3 a^2*eps (backtracking); the returned point has gap at most tol and is tol-suboptimal.", "quantifier": "all convex smooth objectives, convex sets, exact oracles, starting points in the set, tolerances and iteration limits above the bound", "why_tests_cant": "a bound on the number of iterations for every problem; tests run a few instances and look at the final gap", "anchors": ["copt/frank_wolfe.py:minimize_frank_wolfe", "copt/frank_wolfe.py:backtracking_step_size"]}
{"id": "C105", "title": "Frank-Wolfe stops without convexity", "statement": "For a smooth objective bounded below on the set (no convexity), with the Demyanov-Rubinov or the backtracking step, the gap test fires within a iterations as soon as (f(x0) - m) < a*(tol/2*min(1, tol/(L*D2))) (minus the line-search slack for backtracking); the returned point is in the set, no worse than x0, with gap at most tol.", "quantifier": "all smooth objectives, convex sets, exact oracles, starting points, tolerances, iteration limits above the bound", "why_tests_cant": "the tests use convex losses only", "anchors": ["copt/frank_wolfe.py:minimize_frank_wolfe", "copt/frank_wolfe.py:backtracking_step_size"]}
{"id": "C106", "title": "proximal gradient stops at a nearly stationary point without convexity of f", "statement": "For f L-smooth (not necessarily convex), g convex with prox its proximal operator, f + g bounded below by m: minimize_proximal_gradient (not accelerated), with backtracking or with a fixed step s < 2/L, reports success after at most a iterations as soon as max_iter + 1 >= a and f(x0) + g(x0) - m < a*delta (delta = min(1.8/L0, factor/L)*tol^2/2, or s(1 - Ls/2) tol^2); the returned point is no worse than x0 and some subgradient v of g there has |grad f + v| <= (1.1 + L*step)*tol.", "quantifier": "all smooth f, convex g, starting points in the domain of g, tolerances, iteration limits above the bound, backtracking factors", "why_tests_cant": "termination and near stationarity for every problem; tests use convex losses", "anchors": ["copt/proximal_gradient.py:minimize_proximal_gradient"]}
{"id": "C107", "title": "load_img1(n_rows, n_cols) returns an image with n_rows rows and n_cols columns", "statement": "For positive sizes load_img1 returns an array of n_rows rows of n_cols pixels, equal to the file when the size is that of the file.", "quantifier": "all files with a square number of lines, all sizes, all resampling functions", "why_tests_cant": "the examples only load a square image", "anchors": ["copt/datasets.py:load_img1"]}
{"id": "C108", "title": "SFW (SAG and SAGA) converges in mean for every batch size", "statement": "With variants SAG and SAGA, sublinear steps, any batch_size between 1 and n and tol <= 0, no run raises and the mean of F(x_T)-F(y) over all sequences of T = max_iter*(n//batch_size) batches is at most 2(C + kappa Dinf B)/(T+2), kappa = 1 for SAG and 1+batch_size for SAGA; the batches range over any family in which every sample is equally frequent, in particular over all the values of np.random.choice(n, size=batch_size, replace=False).", "quantifier": "all data, convex smooth losses, bounded domains, batch sizes, batch families, max_iter >= 1", "why_tests_cant": "The claim is an average over all sequences of batches.", "anchors": ["copt/randomized.py:minimize_sfw", "copt/randomized.py:step_size_sfw", "copt/utils.py:sample_batches"]}
{"id": "C109", "title": "SFW (MHK) converges in mean for every batch size", "statement": "With variant MHK, sublinear steps 2/(t+8) and averaging weights (2/(t+8))^(2/3), any batch_size between 1 and n and tol <= 0, no run raises and the mean of F(x_T)-F(y) over all sequences of T = max_iter*(n//batch_size) batches is at most M (2/(T+8))^(1/3), where M depends only on the data, the domain and x0 - although the code omits the factor 1/n in the dual variables of this variant.", "quantifier": "all data, convex smooth losses, bounded domains, batch sizes, batch families, max_iter >= 1", "why_tests_cant": "The claim is an average over all sequences of batches.", "anchors": ["copt/randomized.py:minimize_sfw", "copt/randomized.py:step_size_sfw", "copt/utils.py:sample_batches"]}
{"id": "C110", "title": "L1Norm.prox in float64 is the correctly rounded soft threshold", "statement": "For finite float64 alpha*step >= 0 every finite entry of L1Norm.prox(x, step) is a float64 number nearest to the exact soft threshold of x_i at the float product alpha*step: relative error at most 2^-53, zero exactly when |x_i| <= alpha*step, never larger than x_i in magnitude, same sign, monotone in x_i; if the product overflows to infinity, the result is 0.", "quantifier": "all float64 alpha, step and vectors (any length, also with infinite or nan entries elsewhere)", "why_tests_cant": "there are 2^64 floats per entry; tests compare a few random vectors up to a tolerance", "anchors": ["copt/penalty.py:L1Norm.prox"]}
{"id": "C111", "title": "LinfBall.prox in float64 is exact and propagates nan", "statement": "For a finite alpha >= 0, LinfBall.prox returns in each coordinate exactly the real number of [-alpha, alpha] closest to x_i, the input itself (bit for bit) when it is inside, +-alpha for infinities, and nan for nan; applying it twice changes nothing.", "quantifier": "all float64 radii and vectors", "why_tests_cant": "all floats including infinities, nan and signed zeros", "anchors": ["copt/constraint.py:LinfBall.prox"]}
{"id": "C112", "title": "nan is not reported as success", "statement": "If every gradient entry is nan, minimize_proximal_gradient with an L1 penalty does not report success; L1Norm.prox does not turn a nan entry into a number.", "quantifier": "all objectives returning nan gradients, all starting points, step sizes, tolerances", "why_tests_cant": "no test feeds nan", "anchors": ["copt/penalty.py:L1Norm.prox", "copt/proximal_gradient.py:minimize_proximal_gradient"]}
{"id": "C113", "title": "forward error of the sparse products in float64", "statement": "fast_csr_matvec and fast_csr_vecmat on float64 data raise nothing for well-formed rows, and every finite entry of the result differs from the exact product by at most ((1+2^-53)^(m+1)-1) * sum|a||x| + m (1+2^-53)^m 2^-1075, where m is the number of stored entries involved.", "quantifier": "all CSR arrays (also with repeated columns), vectors, index lists, sizes", "why_tests_cant": "rounding errors of every input; tests compare with scipy up to a tolerance", "anchors": ["copt/utils.py:fast_csr_mv", "copt/utils.py:fast_csr_vm"]}
{"id": "C114", "title": "accuracy of the simplex and l1-ball projections in float64", "statement": "With n entries, B = |v|_1 + s, n <= 2^50, n*B <= 2^1020 and entries within a factor 2^52 of s, SimplexConstraint.prox and L1Ball.prox return finite vectors whose entries differ from the exact projection by at most 10 n B 2^-53 + 2^-1073 (simplex; entries are nonnegative) and 12 n B 2^-53 + 2^-1073 (l1 ball), although rounding may select a different support or take a different branch.", "quantifier": "all float64 vectors and radii in the stated range, all sizes up to 2^50", "why_tests_cant": "rounding can flip comparisons; the claim bounds every case", "anchors": ["copt/constraint.py:euclidean_proj_simplex", "copt/constraint.py:euclidean_proj_l1ball"]}
{"id": "C115", "title": "the simplex and l1-ball projections accept every finite input", "statement": "For a finite non-empty float64 vector and a finite s > 0, SimplexConstraint.prox and L1Ball.prox return a vector.", "quantifier": "all finite float64 vectors and radii", "why_tests_cant": "needs entries about 2^53 times larger than s", "anchors": ["copt/constraint.py:euclidean_proj_simplex", "copt/constraint.py:euclidean_proj_l1ball"]}
{"id": "C116", "title": "minimize_three_split with its line search converges", "statement": "For convex proxable g and h and convex L-smooth f with a minimiser that has a multiplier, minimize_three_split with the line search on (the default) and h_Lipschitz=None reports success after finitely many iterations, for every positive tolerance.", "quantifier": "all dimensions, f, g, h, prox operators, starting points, initial steps (given or from init_lipschitz), backtracking factors, tolerances and iteration counts", "why_tests_cant": "Convergence is a statement about all iteration counts and all convex problems; the skipped search for increments below 1e-7 only shows when the step is too long exactly there.", "anchors": ["copt/splitting.py:minimize_three_split", "copt/utils.py:init_lipschitz"]}
{"id": "C117", "title": "the logistic link functions are accurate in float64", "statement": "LogLoss.logsig(x) is within relative error 3d + 4*2^-53 of log(1/(1+exp(-x))) for every finite x, and LogLoss.expit_b(x, b) (also as partial_deriv) is within 2d + 6*2^-53 of sigmoid(x) - b for b in [0,1], with relative error 2d + 4*2^-53 when b is 0 or 1; d bounds the relative error of np.exp and np.log1p.", "quantifier": "all finite float64 x, all labels in [0,1], all libraries whose exp and log1p have relative error d <= 1/1000, all schedules of the parallel loop", "why_tests_cant": "Four branches with thresholds -33, -18 and 37 over 2^64 inputs; cancellation or a misplaced threshold loses digits only in narrow ranges.", "anchors": ["copt/loss.py:LogLoss.logsig", "copt/loss.py:LogLoss.expit_b", "copt/loss.py:LogLoss.partial_deriv"]}
{"id": "C118", "title": "LogLoss of finite data is a number", "statement": "For a finite data matrix, labels in [0,1] and a finite x, LogLoss(A, b)(x) is not nan, and it is close to the exact loss.", "quantifier": "all finite matrices, labels and points", "why_tests_cant": "needs margins <a_i, x> that overflow while the sample is classified correctly (loss near 0)", "anchors": ["copt/loss.py:LogLoss.f_grad", "copt/loss.py:LogLoss.__call__", "copt/loss.py:LogLoss.logsig"]}
{"id": "C119", "title": "SFW (LF) converges in mean for every batch size", "statement": "With variant LF, sublinear steps 2(2m+t)/((t+1)(4m+t)) and averaging weights 2m/(2m+t+1) (m = n/batch_size), any batch_size between 1 and n and tol <= 0, no run raises and the mean of F(x_T)-F(y) over all sequences of T = max_iter*(n//batch_size) batches is at most (6 Dinf G0 + 10 L Dinf^2 + 2 C) sqrt(m/(2m+T+1)), where G0 is the mean absolute derivative at x0 - although the code starts from zero dual variables, which are wrong until a sample is first visited, and evaluates the losses at running averages that lag behind A x.", "quantifier": "all data, convex smooth losses, bounded domains, batch sizes, batch families, max_iter >= 1, starting points", "why_tests_cant": "The claim is an average over all sequences of batches.", "anchors": ["copt/randomized.py:minimize_sfw", "copt/randomized.py:step_size_sfw", "copt/utils.py:sample_batches"]}
{"id": "C120", "title": "pairwise Frank-Wolfe makes a bounded number of moving iterations", "statement": "With variant='pairwise', step='DR', lipschitz >= the smoothness constant of f, tol > 0 and L1Ball.lmo_pairwise, the number of iterations that change x is bounded independently of max_iter: by ((f(x0)-min f) 8 alpha^2 L/tol^2 + 1) (2n+1)^(2n+1). Every such iteration decreases f; the iterations that do not change x are exactly those whose away vertex has weight zero. If none of these occurs and max_iter exceeds the bound, the run ends by the gap test and, for convex f, is within tol of the optimum.", "quantifier": "all smooth f bounded below on the ball (convex for the last claim), radii, dimensions, start vertices, tolerances, max_iter, callbacks", "why_tests_cant": "The steps whose length is cut by the away weight may decrease f arbitrarily little; that they cannot go on for ever is a statement about all runs of every length.", "anchors": ["copt/frank_wolfe.py:minimize_frank_wolfe", "copt/frank_wolfe.py:update_active_set", "copt/constraint.py:L1Ball.lmo_pairwise"]}
{"id": "C121", "title": "get_max_lipschitz returns a per-sample Lipschitz constant", "statement": "utils.get_max_lipschitz(A, loss, alpha) returns, for each documented value of loss (logloss, square, huber), a constant M such that the gradient of every sample's loss plus alpha/2 |x|^2 is M-Lipschitz, and M is the smallest such constant for some sample.", "quantifier": "all data matrices, labels, alpha >= 0, the documented loss names", "why_tests_cant": "A Lipschitz constant is a statement about all pairs of points.", "anchors": ["copt/utils.py:get_max_lipschitz"]}
{"id": "C122", "title": "Pairwise Frank-Wolfe in float64: the DR step never trips the active-set check", "statement": "In binary64, minimize_frank_wolfe with variant='pairwise', step='DR' and L1Ball.lmo_pairwise never raises and returns a result, and no weight of the active set (in the result or in any callback) is ever below zero, whatever rounding, overflow or nan occurs in the certificate, the norms and the steps. More generally update_active_set raises nothing when the step is not below zero and does not compare greater than the weight of the away vertex.", "quantifier": "all float64 objectives with nan-free gradients, radii, starting points, positive Lipschitz constants, tolerances, max_iter > 0, callbacks; every float64 active set for the single call", "why_tests_cant": "The check `active_set[away] < 0` compares a rounded difference with zero; that rounding, the order of the two updates (also when both keys coincide) and overflow never push it below zero is a claim about all float64 values and all runs.", "anchors": ["copt/frank_wolfe.py:minimize_frank_wolfe", "copt/frank_wolfe.py:update_active_set", "copt/constraint.py:L1Ball.lmo_pairwise"]}
{"id": "C123", "title": "Frank-Wolfe in float64: the iterates leave the l1 ball by rounding only", "statement": "In binary64, all iterates of minimize_frank_wolfe with L1Ball.lmo started in the ball are finite, and after k iterations the exact l1 norm of the float64 iterate is at most (1 + 2^-50)^k (alpha + k n 2^-1074), for every step strategy whose steps lie in [0, 1]; with step='sublinear' this holds unconditionally and the call returns.", "quantifier": "all float64 objectives with nan-free gradients, radii, starting points in the ball, dimensions, step strategies, callbacks, tolerances, numbers of iterations (as long as the bound stays below 2^1000)", "why_tests_cant": "Convexity keeps the exact iterates in the ball (C41), but every float64 update rounds; how the roundings of all iterations add up cannot be seen in runs of any fixed length.", "anchors": ["copt/frank_wolfe.py:minimize_frank_wolfe", "copt/constraint.py:L1Ball.lmo"]}
{"id": "C124", "title": "SAGA and SVRG treat an integer starting point like the same float point", "statement": "minimize_saga and minimize_svrg started from an integer array return what they return for the float64 array with the same values. REFUTED: x = np.ascontiguousarray(x0).copy() keeps the integer type, so every update x[b_j] -= ... is truncated towards zero. From an integer array of zeros and updates below one, nothing moves and success=True is returned after one epoch, whatever the gradient. What holds: the float64 case is the plain algorithm, and an integer run has integer iterates only.", "quantifier": "every problem, partition into blocks, step size, tolerance, epoch count and sample order; the float case for every arithmetic", "why_tests_cant": "the tests start from np.zeros(n_features), which is float64; an integer start such as np.array([0, 0]) raises no error and reports success", "anchors": ["copt/randomized.py:minimize_saga", "copt/randomized.py:minimize_svrg", "copt/randomized.py:_saga_epoch", "copt/randomized.py:_svrg_epoch"]}
{"id": "C125", "title": "The float64 gradient of LogLoss is close to the exact gradient", "statement": "In binary64, LogLoss.f_grad with finite data, labels in [0, 1] and finite margins returns a gradient every finite component j of which differs from the exact gradient of the exact penalised mean loss by at most E + 3u (S/n + E + |alpha x_j|) + 2^-1073, u = 2^-53, S = sum_i |A_ij|, where n E is the rounding error of the n products plus the sum over the samples of |A_ij| times (2d + 6u + a quarter of the rounding error of the margin), d the accuracy of np.exp. All components with S and |alpha x_j| at most 2^1000 are finite (no intercept). With an intercept the rounding of the addition of c enters the margin error, and the derivative with respect to the intercept is finite and within the mean of the sample errors plus (4n + 4)u of the exact one.", "quantifier": "all float64 data matrices, labels in [0,1], iterates with finite margins, alpha, sample counts below 2^53, exp functions of relative error at most 1/1000", "why_tests_cant": "The test compares with a finite difference at random points; a bound on the rounding error for all data cannot be sampled.", "anchors": ["copt/loss.py:LogLoss.f_grad", "copt/loss.py:LogLoss.expit_b"]}
{"id": "C126", "title": "LogLoss does not depend on the element type of its arrays", "statement": "LogLoss.f_grad(x) and hessian_mv(x)(s) return for integer arrays what they return for the float64 arrays with the same values. REFUTED: logsig and expit_b allocate their result with np.zeros_like(z). With an intercept, an integer matrix and an integer x, z is an integer array, the loss becomes the mean of (1-b) max(z,0) + b max(-z,0) (0 instead of log 2 at x = 0) and the gradient is alpha x, 0, whatever the data; an integer s makes hessian_mv raise TypeError or truncates the product. Without an intercept (c = 0.0 is a float), or with a float64 matrix or point, nothing depends on the types.", "quantifier": "all matrices, labels in [0,1], points, alpha; the float part for every arithmetic", "why_tests_cant": "The tests use random float64 data; integer features with an integer start raise no error.", "anchors": ["copt/loss.py:LogLoss.f_grad", "copt/loss.py:LogLoss.logsig", "copt/loss.py:LogLoss.expit_b", "copt/loss.py:LogLoss.hessian_mv", "copt/loss.py:LogLoss.hessian_trace"]}
{"id": "C127", "title": "variant='pairwise' with the default x0_rep and with every linear oracle", "statement": "minimize_frank_wolfe(variant='pairwise') runs when x0_rep is left at its default None, and with each linear oracle of the package. REFUTED: (a) with x0_rep=None and L1Ball.lmo_pairwise every call with max_iter >= 1 and tol >= 0 raises TypeError when unpacking the key None; (b) with L1Ball.lmo, whose away vertex is None, the call raises ValueError as soon as the steps add up to more than the weight of the key None (1 without x0_rep, 0 with it), so with step='sublinear' in the second (first) iteration; otherwise it returns exactly what variant='vanilla' returns. With a vertex representation and lmo_pairwise None never becomes a key.", "quantifier": "every objective, radius, starting point, tolerance, step strategy, callback and number of iterations; (a) and the last claim for every arithmetic", "why_tests_cant": "the tests always pass x0_rep with lmo_pairwise; the sum of the steps decides the outcome", "anchors": ["copt/frank_wolfe.py:minimize_frank_wolfe", "copt/frank_wolfe.py:update_active_set", "copt/constraint.py:L1Ball.lmo", "copt/constraint.py:L1Ball.lmo_pairwise"]}
{"id": "C128", "title": "VRTOS treats an integer starting point like the same float point", "statement": "minimize_vrtos started from an integer array returns what it returns for the float64 array with the same values. REFUTED: z = x0.copy(), x1 = x0.copy() and the array x0 itself keep the integer type, so every value written to them is truncated towards zero. From an integer array of zeros and updates below one, no number of epochs moves anything, and the certificate returned is 0 whatever the gradient. What holds: the float64 case is the plain algorithm, and an integer run has integer iterates only.", "quantifier": "every problem with all features stored, two partitions into blocks, step size, epoch count and sample order; the float case for every arithmetic and every prox", "why_tests_cant": "the tests start from np.zeros(n_features), which is float64; an integer start raises no error and returns a certificate of zero, the value of an exact solution", "anchors": ["copt/randomized.py:minimize_vrtos", "copt/randomized.py:_factory_sparse_vrtos"]}
{"id": "C129", "title": "L2Ball.prox in float64 is close to the projection", "statement": "In binary64, L2Ball.prox returns the projection onto the ball of radius alpha up to rounding errors, for every finite input. REFUTED: the norm is computed as sqrt of a sum of squares, which overflows when an entry reaches 2^512 (the result is then zeros and nans) and underflows when all entries are at most 2^-538 (the point is then returned unchanged, even if it lies outside the ball). What holds: for norms between 2^-450 and 2^500 every entry of the result is finite and within (8n+40) 2^-53 relative plus 2^-620 absolute of the exact projection, and the norm of the result is at most alpha up to the same errors.", "quantifier": "all finite float64 radii >= 0 and inputs of at most 2^48 entries; overflow and underflow theorems for all inputs in those ranges", "why_tests_cant": "The tests draw Gaussian inputs of moderate size and accept results up to a tolerance; neither the ranges in which the square over- or underflows nor a bound valid for all inputs can be sampled.", "anchors": ["copt/constraint.py:L2Ball.prox"]}
{"id": "C130", "title": "GroupL1.prox in float64 is close to the proximal point", "statement": "In binary64, GroupL1.prox returns the proximal point of alpha * sum of group norms up to rounding errors, for every finite input. REFUTED: the norm overflows when an entry of a group reaches 2^512; the group is then left unchanged when step * alpha * x_k does not overflow and is nan when it does. What holds: when the group norms are at most 2^500 (and at least 2^-450, or zero, or the threshold alpha * step is at least 2^-440), every entry of the result is finite and within (8n+40) 2^-53 |x_i| + 2^-618 of the exact proximal point, also when the comparison of the rounded norm with the rounded threshold goes the other way than the exact one; entries outside the groups do not change.", "quantifier": "all finite float64 alpha, step >= 0 with alpha * step <= 2^500, all accepted group lists, all finite vectors of at most 2^48 entries in the stated range; the overflow theorem for all groups with an entry >= 2^512", "why_tests_cant": "The tests compare the prox with a numerical minimum at a tolerance of 1e-3 or so on Gaussian inputs; the branch norm > alpha * step at rounding distance and the overflow ranges are never sampled.", "anchors": ["copt/penalty.py:GroupL1.prox"]}
{"id": "C131", "title": "minimize_sfw with the pairwise oracle keeps a convex decomposition", "statement": "minimize_sfw(lmo_variant=\"pairwise\") with the oracle L1Ball.lmo_pairwise, started at a vertex of the ball with that vertex as x0_rep, returns a point of the ball; after every iteration the active set holds distinct vertices with nonnegative weights that sum to 1, and the iterate is their weighted sum. (Refuted as stated: with the default step sizes the step can exceed the weight of the away vertex and update_active_set raises ValueError; with SAGA and step_size=\"DR\" the step can be negative, a weight becomes negative unnoticed and the iterate leaves the ball; the DR step along a vanishing direction is 0/0. It holds for runs with the default steps that do not raise, in every variant, and for SAG with step_size=\"DR\", which never raises.)", "quantifier": "all sparse data matrices, all derivatives of the loss, all draws, batch sizes, radii, starting vertices, tolerances and numbers of epochs; all variants (default steps)", "why_tests_cant": "The failure needs a particular order of samples and an oracle that alternates between vertices; the repository has no test of minimize_sfw with lmo_variant=\"pairwise\".", "anchors": ["copt/randomized.py:minimize_sfw", "copt/frank_wolfe.py:update_active_set", "copt/constraint.py:L1Ball.lmo_pairwise"]}
{"id": "C132", "title": "minimize_sfw on the l1 ball in float64 leaves the ball by rounding only", "statement": "In binary64, minimize_sfw with L1Ball.lmo started in the ball: as long as no gradient estimate has a nan and the steps lie in [0, 1], the l1 norm of the iterate after k iterations is at most (1 + 2^-50)^k (alpha + k d 2^-1074); the default steps of SAG, SAGA, MHK and LF, as computed in binary64, lie in [0, 1]", "quantifier": "all sparse data, derivatives, draws, batch sizes, radii, tolerances, numbers of epochs and finite starting points in the ball; all variants and step rules", "why_tests_cant": "The accumulated rounding over a run of any length is not visible in a few test runs, and the tests check the objective, not feasibility.", "anchors": ["copt/randomized.py:minimize_sfw", "copt/randomized.py:step_size_sfw", "copt/constraint.py:L1Ball.lmo"]}
{"id": "C133", "title": "minimize_sfw pairwise with the default x0_rep, or with an oracle without away vertex", "statement": "minimize_sfw(lmo_variant=\"pairwise\") can be called with its default x0_rep=None and with any oracle of the constraint classes. (Refuted as stated: with the default x0_rep the only item of the active set is None and L1Ball.lmo_pairwise raises TypeError in the first iteration, for every problem. With L1Ball.lmo, whose away vertex is None, the run returns, with the result of the vanilla variant, if and only if the steps add up to at most the weight of None; with the default steps of SAG, SAGA and LF it raises ValueError at the second iteration, or at the first if x0_rep is given. With a vertex representation and lmo_pairwise the keys are pairs throughout.)", "quantifier": "all sparse data matrices, derivatives of the loss, draws, batch sizes, radii, starting points, tolerances and numbers of epochs; every arithmetic for the TypeError and for the agreement with C131, exact arithmetic for the ValueError", "why_tests_cant": "The repository has no test of minimize_sfw with lmo_variant=\"pairwise\", and a test would see one combination of arguments.", "anchors": ["copt/randomized.py:minimize_sfw", "copt/frank_wolfe.py:update_active_set", "copt/constraint.py:L1Ball.lmo_pairwise", "copt/constraint.py:L1Ball.lmo"]}
{"id": "C134", "title": "The float64 gradients of SquareLoss and HuberLoss are close to the exact gradients", "statement": "In binary64, every finite component of the gradient returned by SquareLoss.f_grad and HuberLoss.f_grad differs from the component of the gradient of the exact documented function by at most an explicit bound of the order of machine epsilon times the absolute sums involved; for HuberLoss this holds although the branch of a sample is decided on the rounded residual, so a sample close to the kink may be put on the other side of it. The components are finite unless the sums are near the overflow threshold", "quantifier": "all finite matrices, targets, points, ridge parameters and delta > 0 whose computed residuals are finite, any number of samples below 2^53 and of features", "why_tests_cant": "Accumulated rounding and samples that rounding moves across the kink are not reachable by a few random test points compared with a finite-difference gradient.", "anchors": ["copt/loss.py:SquareLoss.f_grad", "copt/loss.py:HuberLoss.f_grad"]}
{"id": "C135", "title": "minimize_sfw (LF): every running prediction is the prediction of a point of the constraint set", "statement": "In variant LF of minimize_sfw, agg[i] - the number at which the derivative of the loss of sample i is taken - always equals a_i . p for some point p of the constraint set, and dual_var[i] is f_deriv(agg[i], b[i]) / n_samples for every sample visited so far and 0 for the others. (Refuted as stated for lmo_variant=\"pairwise\": extr_point is the iterate plus the difference of two vertices, and a prediction can leave the range of the set; it then stays in the range of the ball of three times the radius.)", "quantifier": "every problem, every oracle of a convex set, every draw of batches, every state of the run, both lmo_variant values", "why_tests_cant": "A test compares the iterates, which stay feasible; agg is internal, and with the pairwise oracle it leaves the range of the set only after a change of direction.", "anchors": ["copt/randomized.py:minimize_sfw", "copt/randomized.py:897-903", "copt/constraint.py:L1Ball.lmo_pairwise"]}
{"id": "C136", "title": "binary64: the values of SquareLoss and HuberLoss are close to the documented losses, nonnegative and finite", "statement": "In binary64, SquareLoss.__call__, SquareLoss.f_grad and HuberLoss.f_grad return a number that - whenever it is finite - differs from the exact documented loss (mean over the samples plus alpha/2 |x|^2) by at most an explicit sum of rounding errors; all the ways of asking for the value return the same number; with alpha >= 0 the number is never negative; and it is finite as long as the residuals, the point and the penalty are below 2^1000.", "quantifier": "every finite binary64 matrix, vector of targets, point, alpha and positive delta, every number of samples below 2^53", "why_tests_cant": "A test compares a few losses with a tolerance; cancellation in the residuals and samples whose rounded residual lies on the other side of delta depend on the last bits of the data.", "anchors": ["copt/loss.py:SquareLoss.__call__", "copt/loss.py:SquareLoss.f_grad", "copt/loss.py:HuberLoss.f_grad"]}
{"id": "C137", "title": "binary64: max_lipschitz bounds the Lipschitz constant of every sample", "statement": "In binary64, LogLoss.max_lipschitz, SquareLoss.max_lipschitz and get_max_lipschitz return a number at least as large as the Lipschitz constant q |A_i|^2 + alpha of every sample (q = 1/4 or 1). (Refuted as stated: the squared norm of the row (1 + 2^-52) is rounded down, and the constant of the non-zero row (2^-600) is returned as 0, so that a step 1/(3 L) is a division by zero. As long as no squared row norm overflows and the result is finite, the number is within an explicit rounding error of the constant of one of the samples and not below that of any sample by more than the rounding error of that sample.)", "quantifier": "every finite binary64 matrix and alpha", "why_tests_cant": "A test compares with the same formula in the same arithmetic; that the returned number lies on the wrong side of the exact constant needs exact arithmetic.", "anchors": ["copt/loss.py:LogLoss.max_lipschitz", "copt/loss.py:SquareLoss.max_lipschitz", "copt/utils.py:get_max_lipschitz"]}
{"id": "C138", "title": "binary64: the Frank-Wolfe certificate over the l1 ball is the gap up to an explicit rounding error", "statement": "In binary64, np.dot(update_direction, -grad) with the direction of L1Ball.lmo differs from the exact Frank-Wolfe gap of the computed gradient over the ball by at most csr_err n (2 G M) + 2^-53 G M, where G bounds the gradient and M = |x|_1 + alpha. Hence when minimize_frank_wolfe leaves its loop by the gap test or the callback, f(x) - f(y) is at most the returned certificate plus that error plus delta M for every y of the ball and every convex f whose gradient at x is within delta, entry by entry, of the computed one; after the gap test the certificate is at most tol.", "quantifier": "every dimension, finite x, gradient and alpha >= 0 with |x|_1 + alpha <= 2^1000 and a finite certificate, every step strategy, callback and iteration count, every convex f", "why_tests_cant": "A test sees one run and compares the certificate with a value computed in the same arithmetic; that it bounds the distance to the optimum in exact arithmetic quantifies over all points of the ball and all convex objectives.", "anchors": ["copt/frank_wolfe.py:minimize_frank_wolfe", "copt/constraint.py:L1Ball.lmo"]}
