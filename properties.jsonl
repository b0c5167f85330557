{"id": "C01", "title": "SGD visits each separable function exactly once per epoch", "statement": "In every call of SGD::Optimize with batchSize > 0 on a function with NumFunctions() > 0, the (begin, batchSize) ranges handed to EvaluateWithGradient are never empty, never reach past NumFunctions(), follow each other without gap or overlap, and every completed epoch covers 0..NumFunctions()-1 exactly once.", "quantifier": "every objective function, starting point, batch size, iteration limit, tolerance and callback behaviour, with and without shuffling", "why_tests_cant": "a wrong clamp of the last batch only shows for particular combinations of batch size, function count and iteration limit; there are unboundedly many", "anchors": ["include/ensmallen_bits/sgd/sgd_impl.hpp: SGD::Optimize (130-207)"]}
{"id": "C02", "title": "SGD respects maxIterations exactly", "statement": "The total number of separable functions visited by SGD::Optimize never exceeds maxIterations, and equals it whenever the run is not stopped by a callback, by the tolerance or by a non-finite objective. Each batch is followed by exactly one update of the iterate, and the whole run terminates.", "quantifier": "every objective function, starting point, batch size, iteration limit, tolerance and callback behaviour", "why_tests_cant": "budget overruns depend on the residues of three integers and on when the callbacks fire", "anchors": ["include/ensmallen_bits/sgd/sgd_impl.hpp: SGD::Optimize (125-162)"]}
{"id": "C03", "title": "The value SGD returns", "statement": "With exactObjective, unless the run was ended by the tolerance/NaN test, the value returned by SGD::Optimize is the sum of the objective over all batches evaluated at the final iterate. Otherwise it is the sum of the batch objectives of the pass under way, or of the last finished pass when none is under way; the only exception is a run stopped by a callback between two passes, which returns 0.", "quantifier": "every objective function, starting point, batch size, iteration limit, tolerance and callback behaviour", "why_tests_cant": "the accumulator is reset at epoch boundaries, so which sum is returned depends on where the run ends; the exceptional case needs a callback answering at a particular moment", "anchors": ["include/ensmallen_bits/sgd/sgd_impl.hpp: SGD::Optimize (147-232)"]}
{"id": "C04", "title": "Callback protocol of SGD", "statement": "For every SGD::Optimize run the callbacks observe BeginOptimization first, EndOptimization exactly once and last, epoch numbers 1,2,3,... with each EndEpoch k preceded by BeginEpoch k, each StepTaken immediately preceded by the EvaluateWithGradient of the same batch.", "quantifier": "every objective function, starting point, batch size, iteration limit, tolerance and callback behaviour", "why_tests_cant": "the order of notifications depends on the whole history of a run", "anchors": ["include/ensmallen_bits/sgd/sgd_impl.hpp: SGD::Optimize (127-232)"]}
{"id": "C05", "title": "A callback that asks to stop does stop SGD", "statement": "Once any callback of SGD::Optimize returns true, no further batch is evaluated (apart from the final exact objective), at most the step for the current batch is still taken, and EndOptimization is called.", "quantifier": "every objective function, starting point, batch size, iteration limit, tolerance and callback behaviour and every position at which a callback first answers true", "why_tests_cant": "stopping at every possible point of every run cannot be enumerated", "anchors": ["include/ensmallen_bits/sgd/sgd_impl.hpp: SGD::Optimize (130,149,156,168,193)"]}
{"id": "C06", "title": "Callback dispatch", "statement": "For a pack of callbacks, Callback::Evaluate/Gradient/StepTaken/BeginEpoch/EndEpoch/EvaluateWithGradient return true iff some callback that was run returned true; callbacks run in the order given; BeginOptimization and EndOptimization reach every callback. A callback is skipped iff an earlier one in the pack already returned true for that event.", "quantifier": "every number of callbacks, every answer of each of them", "why_tests_cant": "a pack has unboundedly many sizes and answers", "anchors": ["include/ensmallen_bits/callbacks/callbacks.hpp: Callback::Evaluate (276-289), Callback::EvaluateWithGradient (591-609), BeginOptimization (109-129), EndOptimization (183-203)"]}
{"id": "C07", "title": "EarlyStopAtMinLoss stops exactly after `patience` epochs without improvement", "statement": "EarlyStopAtMinLoss returns true at an epoch iff the last `patience` consecutive epochs (at least one) brought no objective strictly below the best one seen before them.", "quantifier": "every sequence of epoch objectives (including NaN and infinities) and every patience", "why_tests_cant": "the stopping rule is a statement over all objective histories", "anchors": ["include/ensmallen_bits/callbacks/early_stop_at_min_loss.hpp: EndEpoch (71-98)"]}
{"id": "C08", "title": "StoreBestCoordinates keeps the argmin", "statement": "After any sequence of Evaluate events, BestObjective() is the least reported objective and BestCoordinates() the coordinates of the first event reporting it; if no event is below DBL_MAX nothing is stored.", "quantifier": "every sequence of evaluations, including NaN objectives", "why_tests_cant": "holds over all histories", "anchors": ["include/ensmallen_bits/callbacks/store_best_coordinates.hpp: Evaluate (42-54)"]}
{"id": "C09", "title": "Gradient clipping bounds the gradient", "statement": "After GradClipByNorm(m) the gradient has Euclidean norm at most m, keeps its direction, and is unchanged if it was already short enough; after GradClipByValue(lo,hi) or the GradientClipping update policy every entry lies in [lo,hi] and entries inside are unchanged.", "quantifier": "every gradient vector and every bound", "why_tests_cant": "continuous input space", "anchors": ["include/ensmallen_bits/callbacks/grad_clip_by_norm.hpp: Gradient (42-52)", "include/ensmallen_bits/callbacks/grad_clip_by_value.hpp: Gradient", "include/ensmallen_bits/sgd/update_policies/gradient_clipping.hpp: Update"]}
{"id": "C10", "title": "Synthesised function methods agree with each other", "statement": "Whatever subset of Evaluate / Gradient / EvaluateWithGradient (full or separable) the user supplies, the methods synthesised by ens::Function agree: Evaluate equals the value returned by EvaluateWithGradient, Gradient equals the gradient it produces. Supplied methods of one form (all non-const, all const or all static) are never replaced, and Evaluate with Gradient, or EvaluateWithGradient alone, makes all three available.", "quantifier": "every objective function, every supported subset of methods and every form in which each is supplied", "why_tests_cant": "it ranges over all functions and all method subsets", "anchors": ["include/ensmallen_bits/function/add_evaluate.hpp: AddEvaluate", "include/ensmallen_bits/function/add_gradient.hpp: AddGradient", "include/ensmallen_bits/function/add_evaluate_with_gradient.hpp: AddEvaluateWithGradient", "include/ensmallen_bits/function/add_separable_evaluate_with_gradient.hpp"]}
{"id": "C11", "title": "GradientDescent iteration count and returned value", "statement": "GradientDescent::Optimize evaluates the function at most maxIterations-1 times (maxIterations >= 1), every step is iterate - stepSize*gradient at the point evaluated, and the returned value is the objective at the last point evaluated; it is the objective of the final iterate only when it stops by tolerance or a non-finite objective.", "quantifier": "every differentiable function, step size, tolerance, start and callback behaviour", "why_tests_cant": "unbounded runs", "anchors": ["include/ensmallen_bits/gradient_descent/gradient_descent_impl.hpp: GradientDescent::Optimize (39-113)"]}
{"id": "C12", "title": "Coordinate descent touches only the chosen coordinate and returns the final objective", "statement": "Each step of CD changes only the column chosen by the descent policy, by -stepSize times that column of the partial gradient; at most maxIterations-1 steps are taken; Optimize always returns the objective of the final iterate. Cyclic descent visits the features round-robin; greedy descent picks the first feature with maximal summed partial gradient if that is positive, else feature 0.", "quantifier": "every resolvable function, policy, limits and callbacks", "why_tests_cant": "unbounded runs and all function shapes", "anchors": ["include/ensmallen_bits/cd/cd_impl.hpp: CD::Optimize (44-133)", "include/ensmallen_bits/cd/descent_policies/cyclic_descent.hpp", "include/ensmallen_bits/cd/descent_policies/greedy_descent.hpp: DescentFeature (49-73)"]}
{"id": "C13", "title": "GridSearch returns the best point of the whole grid", "statement": "GridSearch::Optimize evaluates every combination of categories exactly once and returns the least objective, with the iterate set to the first combination attaining it; if no value is below DBL_MAX the iterate is all zeros.", "quantifier": "every number of dimensions, category counts and objective functions", "why_tests_cant": "the grid has unboundedly many shapes", "anchors": ["include/ensmallen_bits/grid_search/grid_search_impl.hpp: GridSearch::Optimize, OptimizeRecursive"]}
{"id": "C14", "title": "SPSA restores the iterate around its two evaluations and bounds evaluations", "statement": "Each SPSA iteration evaluates the function at iterate+ck*sp and iterate-ck*sp for one +-1 vector sp, in exact arithmetic restores the iterate before stepping by -ak*(f+ - f-)/(2 ck sp), performs at most maxIterations iterations, takes no step after a stop request, and returns the objective of the final iterate (unless the tolerance exceeds DBL_MAX).", "quantifier": "every function, perturbation sequence, gains and callbacks", "why_tests_cant": "random perturbations and unbounded runs", "anchors": ["include/ensmallen_bits/spsa/spsa_impl.hpp: SPSA::Optimize (42-132)"]}
{"id": "C15", "title": "Simulated annealing: returned energy is the energy of the returned state", "statement": "SA::Optimize performs Metropolis moves: move j changes only coordinate j mod n by a Laplace step whose scale is the configured initial size or at most the configured maximum; it is kept iff it does not increase the energy or passes the Metropolis test, otherwise the iterate is restored exactly; the temperature follows the cooling schedule once per post-initial move; the returned value is the objective of the final iterate; it stops at the limit, a stop request, or as soon as the system is frozen.", "quantifier": "every function, random stream, schedule and limits", "why_tests_cant": "every random stream", "anchors": ["include/ensmallen_bits/sa/sa_impl.hpp: SA::Optimize, GenerateMove (141-200), MoveControl"]}
{"id": "C16", "title": "Differential evolution never loses its best member", "statement": "DE::Optimize rejects populations below 3; a member is only ever replaced by a strictly better candidate built from a best member; the returned value equals the objective of the returned iterate; no initial member beats it, and no accepted candidate beats it, or at most by less than the tolerance when the tolerance test ended the run.", "quantifier": "every function, population, random stream, limits and callbacks", "why_tests_cant": "every random stream and history", "anchors": ["include/ensmallen_bits/de/de_impl.hpp: DE::Optimize"]}
{"id": "C17", "title": "CNE preserves the elite and stays inside its population", "statement": "In every generation of CNE the best candidate of the previous one survives unchanged, the other elite members are only mutated and every other member is assembled from elite members and mutated; the returned value is the objective of the returned iterate, which no evaluated candidate beats; the parameter checks leave at least four members, an elite of at least two and room for two children, or an elite larger than the population.", "quantifier": "every population size, selection percentage, mutation stream and function", "why_tests_cant": "integer residues and random streams", "anchors": ["include/ensmallen_bits/cne/cne_impl.hpp: CNE::Optimize, Reproduce, Crossover, Mutate"]}
{"id": "C18", "title": "PSO personal and global bests", "statement": "With 1 <= horizonSize <= maxIterations, no stop during the initial evaluations and some initial objective below DBL_MAX, PSO::Optimize returns: every personal best is only replaced by a strictly better position of the same particle, StepTaken shows a best of the personal bests, the value returned is the objective of the point returned, and (for a NaN-free objective) no objective evaluated is below it, except possibly the last one. It ends by its limit, a request, or because the swarm best improved by less than the tolerance over the last horizonSize iterations; it throws iff maxIterations < horizonSize. Outside these conditions it can return DBL_MAX with an unrelated point, and scalar lower bounds and the left neighbour are not honoured (refuted).", "quantifier": "every objective, velocity policy, initial swarm, callback behaviour, horizon and tolerance", "why_tests_cant": "every random stream and history", "anchors": ["include/ensmallen_bits/pso/pso_impl.hpp: PSOType::Optimize", "include/ensmallen_bits/pso/update_policies/lbest_update.hpp", "include/ensmallen_bits/pso/init_policies/default_init.hpp"]}
{"id": "C19", "title": "CMA-ES tracks the best transformed mean", "statement": "With full selection, CMAES and ActiveCMAES (any weights, sampling and adaptation rule), whenever Optimize returns: the iterate is the transformed best mean, the value is its objective summed over all functions, it is never worse than the (transformed) start, at most maxIterations-1 generations were made (unlimited for 0), every generation moves the mean by the weighted steps of its best members, and the run ended by its limit, a request, a diverging step size, a non-finite objective, or patience+1 generations of changes below the tolerance. It returns if no objective is NaN and the Cholesky loop ends. With RandomSelection, a one-member population, batchSize 0 or a proper matrix iterate the claims fail (refuted).", "quantifier": "every function, sampled population, adaptation rule, transformation and callbacks", "why_tests_cant": "every sampled population", "anchors": ["include/ensmallen_bits/cmaes/cmaes_impl.hpp: CMAES::Optimize (68-383)", "include/ensmallen_bits/cmaes/full_selection.hpp", "include/ensmallen_bits/cmaes/active_cmaes_impl.hpp"]}
{"id": "C20", "title": "Box constraints of BoundaryBoxConstraint hold for every point", "statement": "BoundaryBoxConstraint::Transform maps every coordinate into [lowerBound, upperBound] (bounds repeated beyond their length), is the identity between the margins, is non-decreasing and does not expand distances on the box and its margins (hence continuous there), and is defined within 2^31 box widths of the centre; further out the int conversion is undefined behaviour, and with a scalar lower and vector upper bound only the first upper bound is used (refuted).", "quantifier": "every real coordinate and every pair lower < upper (exact real arithmetic)", "why_tests_cant": "continuous unbounded input space", "anchors": ["include/ensmallen_bits/cmaes/transformation_policies/boundary_box_constraint.hpp: Transform (77-132)"]}
{"id": "C21", "title": "POP-CMA-ES restarts and returns the best of all runs", "statement": "POP_CMAES makes at most maxRestarts+1 CMA-ES runs, each from the user's starting point, stopping early exactly when the number it counts reaches maxFunctionEvaluations; it returns the best evaluation callbacks saw in the runs up to the run with the best result, which (single batch) is not above any run's result. The best evaluation of all runs, the true objective (several batches), stop requests and the true number of evaluations are not honoured (refuted).", "quantifier": "every function, runs, restart count and budget", "why_tests_cant": "all restart histories", "anchors": ["include/ensmallen_bits/cmaes/pop_cmaes_impl.hpp: POP_CMAES::Optimize (54-159)", "include/ensmallen_bits/callbacks/store_best_coordinates.hpp"]}
{"id": "C22", "title": "L-BFGS keeps the last numBasis correction pairs", "statement": "After k updates, the pairs used to build the search direction are exactly the min(k, numBasis) most recent (s,y) pairs, newest first, whatever k and numBasis >= 1.", "quantifier": "every history of updates and every numBasis", "why_tests_cant": "ring buffer over unbounded histories", "anchors": ["include/ensmallen_bits/lbfgs/lbfgs_impl.hpp: SearchDirection (119-169), UpdateBasisSet (185-198)"]}
{"id": "C23", "title": "L-BFGS two-loop recursion computes the BFGS inverse-Hessian product", "statement": "The search direction equals -(H*gradient), where H is obtained from scalingFactor*I by the BFGS inverse updates with the stored pairs, oldest first (rho = 1 when y.s = 0); H is symmetric and satisfies the secant equation for the newest pair; with y.s >= 0 for every stored pair and positive scaling H is positive definite and the direction a descent direction. Without the curvature condition it may point uphill (refuted).", "quantifier": "every dimension, memory size and history of pairs (exact real arithmetic)", "why_tests_cant": "algebraic identity over all histories", "anchors": ["include/ensmallen_bits/lbfgs/lbfgs_impl.hpp: SearchDirection (119-169)"]}
{"id": "C24", "title": "L-BFGS line search acceptance and budget", "statement": "LineSearch always ends after at most max(1, maxLineSearchTrials) evaluations, with steps 1, then 2.1 times or half the previous one. On success the iterate has moved by the step of the first trial with the least objective, value and gradient are those of the last trial, and the last trial satisfies the strong Wolfe conditions (then the objective at the new iterate decreased by at least armijo*step*|slope|) or a limit was reached. On failure (uphill or non-finite slope, NaN trial) the iterate is unchanged. The reported value need not be the objective at the iterate, and on a limit the iterate may be worse than the start (refuted).", "quantifier": "every function, direction and parameter set", "why_tests_cant": "all trial histories", "anchors": ["include/ensmallen_bits/lbfgs/lbfgs_impl.hpp: LineSearch (219-333)"]}
{"id": "C25", "title": "L-BFGS optimize: termination and return value", "statement": "L_BFGS::Optimize (numBasis >= 1) returns, after at most maxIterations iterations when nonzero; accepted iterates are exactly those reported by StepTaken, each reached by a line search along the direction built from the numBasis most recent differences, with strictly decreasing recorded values; it ends for one of the listed reasons, EndOptimization comes once and last, and after a stop request at most the current iteration is finished. Because the member terminate is never reset, a call after a stopped one returns the start at once; the returned value may belong to another point than the returned iterate and may be above the start's (refuted).", "quantifier": "every function, start, parameter set and call history", "why_tests_cant": "call histories", "anchors": ["include/ensmallen_bits/lbfgs/lbfgs_impl.hpp: Optimize (351-497)"]}
{"id": "C26", "title": "Augmented Lagrangian value, gradient and multiplier updates", "statement": "AugLagrangianFunction::Evaluate is f - sum lambda_i c_i + sigma/2 sum c_i^2 and Gradient is the gradient of that function whenever the objective's and the constraints' gradients are right. In each complete outer iteration of AugLagrangian::Optimize either every multiplier is moved by -sigma*c_i and sigma is kept, or sigma grows by its factor and the multipliers are kept, according to the threshold; the call returns true only when the objective changed by less than the tolerance while sigma > 500000, and only then stores multipliers and sigma; it performs at most maxIterations-1 outer iterations; EndOptimization of the outer method comes once and last. (That true means feasible, or that a request made to the inner optimizer stops the method, is refuted.)", "quantifier": "every constrained function, multiplier vector, penalty and history", "why_tests_cant": "all histories and real inputs", "anchors": ["include/ensmallen_bits/aug_lagrangian/aug_lagrangian_function_impl.hpp: Evaluate, Gradient", "include/ensmallen_bits/aug_lagrangian/aug_lagrangian_impl.hpp: Optimize"]}
{"id": "C27", "title": "Frank-Wolfe iterates stay in the constraint set", "statement": "With the classic or line-search update rule and a constraint solver returning points of a convex set, every point FrankWolfe evaluates, every step and the final iterate stay in the set; Optimize stops at the first duality gap below the tolerance, which for a convex objective with a correct gradient and an exact solver means the returned value is the objective at the returned iterate and within the tolerance of every value in the set; otherwise it stops at the limit (maxIterations-1 evaluations) or right after a request, returning the last value computed (which then belongs to the previous iterate).", "quantifier": "every convex set, function, start in the set and number of iterations", "why_tests_cant": "unbounded runs over a continuum", "anchors": ["include/ensmallen_bits/fw/frank_wolfe_impl.hpp: FrankWolfe::Optimize (46-117)", "include/ensmallen_bits/fw/update_classic.hpp: Update", "include/ensmallen_bits/fw/update_linesearch.hpp"]}
{"id": "C28", "title": "ConstrLpBall solves its linear minimisation problem", "statement": "For p = infinity, p = 1 and every integer p > 1, every non-empty vector v and all positive weights, ConstrLpBallSolver::Optimize returns a point of the weighted unit p-ball that minimises <s, v> over that ball; ConstrStructGroupSolver with GroupLpBall (p = 1, 2, infinity) returns an atom of one of its groups that minimises <s, v> over the atoms of all groups; p < 1 leaves s unchanged. For non-integer p or negative weights the point need not be a minimiser.", "quantifier": "every vector v, weights, groups and ball point", "why_tests_cant": "continuum of inputs", "anchors": ["include/ensmallen_bits/fw/constr_lpball.hpp: ConstrLpBallSolver::Optimize"]}
{"id": "C29", "title": "Proximal projections", "statement": "For tau >= 0 ProjectToL1Ball leaves points of the l1 ball of radius tau unchanged and moves every other vector into the ball, without growing or flipping any element, to the point nearest to it among those of no larger 1-norm; it is in general not the Euclidean projection onto the ball. For 0 <= tau <= n ProjectToL0Ball zeroes exactly n - tau elements, none larger in magnitude than one that is kept, and the result is a best tau-sparse approximation; any other tau runs out of bounds.", "quantifier": "every vector and radius", "why_tests_cant": "continuum of inputs", "anchors": ["include/ensmallen_bits/fw/proximal/proximal_impl.hpp: ProjectToL1Ball (36-66), ProjectToL0Ball (73-80)"]}
{"id": "C30", "title": "Momentum-style updates unroll to their textbook form", "statement": "After any sequence of gradients, VanillaUpdate, MomentumUpdate, NesterovMomentumUpdate and QHUpdate have moved the iterate by the documented weighted sum of all past gradients; with zero momentum they coincide with plain gradient descent.", "quantifier": "every gradient sequence, momentum and step size", "why_tests_cant": "unbounded sequences", "anchors": ["include/ensmallen_bits/sgd/update_policies/vanilla_update.hpp", "include/ensmallen_bits/sgd/update_policies/momentum_update.hpp", "include/ensmallen_bits/sgd/update_policies/nesterov_momentum_update.hpp", "include/ensmallen_bits/sgd/update_policies/quasi_hyperbolic_update.hpp"]}
{"id": "C31", "title": "Adam-family moment estimates", "statement": "After any gradient sequence the moments of Adam, AMSGrad, NAdam, AdaMax, AdaBelief, Yogi, Padam, QHAdam and OptimisticAdam are the documented (bias-corrected) exponential averages: the second moment is non-negative, never above the largest squared gradient, AMSGrad/Padam's is non-decreasing, and a constant gradient is estimated without bias.", "quantifier": "every gradient sequence and all beta in [0,1)", "why_tests_cant": "unbounded sequences of reals", "anchors": ["include/ensmallen_bits/adam/adam_update.hpp: Update", "include/ensmallen_bits/adam/amsgrad_update.hpp", "include/ensmallen_bits/adam/adamax_update.hpp", "include/ensmallen_bits/yogi/yogi_update.hpp", "include/ensmallen_bits/padam/padam_update.hpp", "include/ensmallen_bits/qhadam/qhadam_update.hpp"]}
{"id": "C32", "title": "AdaGrad/RMSProp/AdaDelta/AdaSqrt/SMORMS3/WNGrad step-size invariants", "statement": "Their accumulators stay non-negative (AdaGrad, AdaSqrt, WNGrad: non-decreasing; RMSProp/AdaDelta: within the range of squared gradients; SMORMS3: memory >= 1 and relative step <= min(stepSize,1)), so the denominators are never zero for epsilon > 0 and each coordinate moves against its gradient.", "quantifier": "every gradient sequence", "why_tests_cant": "unbounded sequences of reals", "anchors": ["include/ensmallen_bits/ada_grad/ada_grad_update.hpp", "include/ensmallen_bits/rmsprop/rmsprop_update.hpp", "include/ensmallen_bits/ada_delta/ada_delta_update.hpp", "include/ensmallen_bits/smorms3/smorms3_update.hpp", "include/ensmallen_bits/wn_grad/wn_grad_update.hpp"]}
{"id": "C33", "title": "AdaBound/AMSBound clip the per-coordinate learning rate", "statement": "Each AdaBound/AMSBound update multiplies the first moment by a rate between the documented lower and upper bound (equal to Adam's own rate when that lies between them), and both bounds converge to finalLr (scaled by the ratio of the current to the first step size). The accessor Gamma() does not reach the convergence speed: it reads and writes finalLr.", "quantifier": "every gradient sequence, step and iteration", "why_tests_cant": "unbounded sequences", "anchors": ["include/ensmallen_bits/ada_bound/ada_bound_update.hpp: Update (121-156), Gamma (70-72)", "include/ensmallen_bits/ada_bound/ams_bound_update.hpp"]}
{"id": "C34", "title": "SGDR step-size schedule", "statement": "Under CyclicalDecay the step size always stays within [0, initial step]. Number the updates from 0 and let the periods be t0, t0*multFactor, ...; the k-th restart happens one update after the sum of the first k+1 periods. Inside phase k, update n leaves the step alone while n is below the current period and otherwise sets it to step/2 * (1 + cos(pi * j / epochBatches)) with j counted from the start of the phase (or from update 'period', if later). A restart therefore returns the step to its initial value whenever the new period is not longer than the updates made so far, in particular always for multFactor = 1. The step an SGD run ends with is the scheduled one. (For multFactor = 2 a restart need not reset the step, and inside a phase the step may rise: both naive claims are refuted.)", "quantifier": "every period sequence, initial step, number of batches per epoch and number of updates", "why_tests_cant": "unbounded sequences of updates", "anchors": ["include/ensmallen_bits/sgdr/cyclical_decay.hpp: Update (123-152)", "include/ensmallen_bits/sgdr/sgdr_impl.hpp"]}
{"id": "C35", "title": "Snapshot ensembles average the right points", "statement": "After a run of SnapshotSGDR the snapshots held are exactly the iterates after the restart updates whose next period has reached snapshotEpochs, in order; when accumulating, the returned iterate is the coordinatewise mean of the final iterate and the snapshots and the returned value the objective summed at it. If the periods grow and at most one more snapshot than there are restarts is requested, at most the requested number is stored. (Refuted: the bound for multFactor = 1, and for more requests than restarts.)", "quantifier": "every objective, callback, configuration and run that returns", "why_tests_cant": "all run histories", "anchors": ["include/ensmallen_bits/sgdr/snapshot_ensembles.hpp: Update", "include/ensmallen_bits/sgdr/snapshot_sgdr_impl.hpp: Optimize"]}
{"id": "C36", "title": "Parallel SGD loses no update and assigns each function to at most one thread", "statement": "In every epoch and under every interleaving of the threads' steps after which all threads have finished, exactly the first threads*threadShareSize functions of the visitation order are processed (all of them when that product is at least NumFunctions()), each once and by the thread that owns its position; every gradient element is subtracted exactly once, so over the reals each element ends at its old value minus the sum of the step-size multiples of all gradient elements computed for it. Fewer than maxIterations epochs run and the value returned is the last objective computed. A stop request from a callback is never lost with one thread but can be lost with two.", "quantifier": "every number of threads, share size, function, gradient history and interleaving", "why_tests_cant": "thread schedules cannot be enumerated by tests", "anchors": ["include/ensmallen_bits/parallel_sgd/parallel_sgd_impl.hpp: Optimize (145-189), UpdateLocation (24-46)"]}
{"id": "C37", "title": "Parallel SGD step-size policies", "statement": "ConstantStep always returns its step; ExponentialBackoff returns a step that is non-increasing and multiplied by beta exactly at its cutoff epochs.", "quantifier": "every epoch sequence and parameters", "why_tests_cant": "unbounded epochs", "anchors": ["include/ensmallen_bits/parallel_sgd/decay_policies/exponential_backoff.hpp: StepSize (62-70)", "include/ensmallen_bits/parallel_sgd/decay_policies/constant_step.hpp"]}
{"id": "C38", "title": "Pareto dominance is a strict partial order", "statement": "The Dominates predicate used by NSGA2 and AGEMOEA holds, for vectors without NaN, iff the first vector is nowhere worse and somewhere better; it is irreflexive and asymmetric for all vectors and transitive for vectors of one length without NaN. With NaN transitivity fails.", "quantifier": "every pair/triple of objective vectors of every length", "why_tests_cant": "all vectors", "anchors": ["include/ensmallen_bits/nsga2/nsga2_impl.hpp: Dominates (400-421)", "include/ensmallen_bits/agemoea/agemoea_impl.hpp: Dominates"]}
{"id": "C39", "title": "Fast non-dominated sorting builds the Pareto fronts", "statement": "For objectives without NaN, fast non-dominated sorting of the first n members terminates; its fronts partition these members; front 0 is the set of non-dominated members; a member of front k+1 is dominated by some member of front k and only by members of fronts 0..k; ranks agree with front numbers; the fronts are uniquely determined. With NaN objectives members can be lost.", "quantifier": "every population and objective count", "why_tests_cant": "combinatorially many populations", "anchors": ["include/ensmallen_bits/nsga2/nsga2_impl.hpp: FastNonDominatedSort (339-396)", "include/ensmallen_bits/agemoea/agemoea_impl.hpp: FastNonDominatedSort (598-642)"]}
{"id": "C40", "title": "What NSGA2 reports", "statement": "With valid settings NSGA2::Optimize returns, everything it reports is within the bounds, ParetoFront() lists the objectives of exactly the non-dominated members of the last evaluated population, at most maxGenerations generations run and a stop request ends the run. ParetoSet() holds the members at the same positions of the next population, so it need not match ParetoFront(); the returned value is the least objective sum or zero; both naive claims are refuted, as are runs with no generation, no population or NaN objectives.", "quantifier": "every multi-objective function, population, random stream, sort and callback", "why_tests_cant": "every random stream", "anchors": ["include/ensmallen_bits/nsga2/nsga2_impl.hpp: Optimize, EvaluateObjectives, Crossover, Mutate"]}
{"id": "C41", "title": "MOEA/D keeps its invariants", "statement": "MOEAD::Optimize throws for populations below 3 and neighbourhoods below 2 or above populationSize-1; otherwise (at most as many objectives as individuals) every initial individual and child lies within the bounds, the ideal point given to the decomposition policy is the component-wise minimum of all objective vectors evaluated so far, each child is compared at most once with each member of its pool (the neighbours of its sub-problem, which are the nearest weights, or everybody) and replaces exactly those whose decomposed value it strictly improves, at most maxReplace of them, every sub-problem gets one child per generation, ParetoFront() is the objectives of ParetoSet() (the final population), and a stop request ends the run after that generation.", "quantifier": "every function, random stream, decomposition and parameter set", "why_tests_cant": "every random stream", "anchors": ["include/ensmallen_bits/moead/moead_impl.hpp: Optimize, Mating (334-360), Mutate (366-402)"]}
{"id": "C42", "title": "Das-Dennis reference directions", "statement": "Uniform weight initialisation for m >= 2 objectives produces, when the number of points asked for is the size C(m+p-1, p) of a lattice with p >= 1 partitions (and its square fits in 64 bits), exactly the lattice points (i_1..i_m)/p, each once, each non-negative and summing to one up to the epsilon added to every entry; any other number of points throws; BinomialCoefficient and FindNumParitions are exact. The broken-stick and Dirichlet policies also give non-negative weights summing to one for every draw. With one objective the only weight is NaN.", "quantifier": "every number of objectives and points, every random draw", "why_tests_cant": "unbounded dimensions", "anchors": ["include/ensmallen_bits/moead/weight_init_policies/uniform_init.hpp: BinomialCoefficient (86-102), DasDennisHelper (133-172), FindNumParitions (110-126)"]}
{"id": "C43", "title": "Quality indicators", "statement": "For non-empty fronts with the same number of objectives: IGD is the power mean of the distances to the front and is zero iff every reference point is in the front; IGD+ is the mean one-sided distance and is zero iff every reference point is weakly dominated by the front; IGD+ <= IGD for every p >= 1; and for a positive reference front Epsilon is the least non-negative factor by which the front covers it. A front each of whose competitors' points it weakly dominates has no larger IGD+ and no larger Epsilon; IGD does not have this property. (With a zero coordinate in the reference front Epsilon reports coverage that no factor gives; an empty reference front gives NaN.)", "quantifier": "all fronts, exponents and dimensions", "why_tests_cant": "continuum of inputs", "anchors": ["include/ensmallen_bits/utility/indicators/igd.hpp", "include/ensmallen_bits/utility/indicators/igd_plus.hpp", "include/ensmallen_bits/utility/indicators/epsilon.hpp"]}
{"id": "C44", "title": "Any container type safety and ownership", "statement": "For every sequence of calls that stores non-null objects, an Any returns its content only for the type last stored (invalid_argument otherwise), no object is deleted twice or used after deletion, the deleted objects are those a Clean() found, and all are deleted exactly once if the holder cleans before every Set and at the end; an SGD object deletes every policy it instantiated exactly once. (A copied optimiser deletes them twice; Set() on a full holder leaks; a stored null pointer passes the type check.)", "quantifier": "every sequence of Set/Clean/As/Has operations and every history of Optimize() calls", "why_tests_cant": "operation histories", "anchors": ["include/ensmallen_bits/utility/any.hpp: Any", "include/ensmallen_bits/sgd/sgd_impl.hpp: ~SGD"]}
{"id": "C45", "title": "Symmetric vectorisation for SDPs", "statement": "SvecIndex is a bijection from index pairs i<=j<n to 0..n(n+1)/2-1 and symmetric in i and j; Smat(Svec(A)) = A and Svec(A).Svec(B) = tr(AB) for symmetric matrices; SymKronId(A)*Svec(H) = Svec((AH+HA)/2); the sparse overload of Svec agrees with the dense one. (A vector whose length is not triangular makes Smat read past its end.)", "quantifier": "every n and all symmetric matrices", "why_tests_cant": "all sizes", "anchors": ["include/ensmallen_bits/sdp/lin_alg.hpp: SvecIndex, Svec, Smat, SymKronId"]}
{"id": "C46", "title": "LRSDP objective and gradient correspond to R R^T", "statement": "After any calls, evaluating LRSDP's augmented Lagrangian gives tr(C RR^T) - sum lambda_i(tr(A_i RR^T)-b_i) + sigma/2 sum(tr(A_i RR^T)-b_i)^2; its gradient asked for at the point last evaluated is 2 S R, which is the true gradient when all matrices are symmetric (and not otherwise); dense constraints are evaluated at the point given, sparse ones at the point last evaluated; LRSDP::Optimize returns tr(C RR^T) of the point at which the augmented function was last evaluated, which need not be the R returned.", "quantifier": "every SDP, multipliers, penalty, R and history of calls", "why_tests_cant": "cached state depends on evaluation history", "anchors": ["include/ensmallen_bits/sdp/lrsdp_function_impl.hpp: EvaluateImpl (170-221), GradientImpl (223-249), Evaluate (58-67)", "include/ensmallen_bits/sdp/lrsdp_impl.hpp: Optimize"]}
{"id": "C47", "title": "PrimalDualSolver: validation, search directions, interior iterates and callbacks", "statement": "PrimalDualSolver::Optimize throws at the start exactly when a shape is wrong or X or Z has no Cholesky factor; its search directions solve the linearised optimality conditions; with 0 < tau < 1 every step length lies in (0,1] and X and Z stay symmetric positive definite (tau = 1 can reach the boundary); primal and dual residuals are those of the start times one factor in [0,1]; the value returned is <C,X>, unless no step was taken, when it is 0; on convergence the three tolerances hold at the point returned; the callbacks are BeginOptimization, one StepTaken per step, none after a stop request, and EndOptimization last unless the solver converged or threw.", "quantifier": "every program, starting point, parameters, callback and run", "why_tests_cant": "all shapes and runs", "anchors": ["include/ensmallen_bits/sdp/primal_dual_impl.hpp: Optimize (189-517), Alpha (61-86)"]}
{"id": "C48", "title": "Test problems: Gradient is the gradient of Evaluate", "statement": "For the differentiable single-objective test problems shipped with the library, Gradient() returns the partial derivatives of Evaluate() at every point where they exist (up to their documented epsilon for Ackley and Bukin). The gradients of Matyas, Rastrigin, Eggholder, the Frank-Wolfe test function and Gockenbach's inequality constraint are wrong.", "quantifier": "all points, all dimensions of the n-dimensional problems, all orders left by Shuffle(), all data sets with 0/1 responses (logistic regression)", "why_tests_cant": "continuum; finite differences cannot cover it", "anchors": ["include/ensmallen_bits/problems/*.hpp: Evaluate, Gradient"]}
{"id": "C49", "title": "Test problems: separable parts add up", "statement": "For every separable test problem, the batch Evaluate/Gradient over any split of the functions into consecutive batches add up to the full Evaluate/Gradient of the problem, before and after Shuffle(). Exceptions: values of Rastrigin, and gradients of the generalized Rosenbrock function for batches of more than one function.", "quantifier": "all dimensions, points, orders of the functions and splits into consecutive batches", "why_tests_cant": "all partitions and permutations", "anchors": ["include/ensmallen_bits/problems/sphere_function_impl.hpp", "include/ensmallen_bits/problems/styblinski_tang_function_impl.hpp", "include/ensmallen_bits/problems/rastrigin_function_impl.hpp", "include/ensmallen_bits/problems/schwefel_function_impl.hpp", "include/ensmallen_bits/problems/generalized_rosenbrock_function_impl.hpp", "include/ensmallen_bits/problems/sparse_test_function_impl.hpp"]}
{"id": "C50", "title": "Test problems: declared optimum is a global minimum", "statement": "GetFinalObjective() is the value of Evaluate at GetFinalPoint() and no point has a lower value, for the test problems with an exact final point; Easom, Styblinski-Tang and McCormick give it up to the rounding of the documented constants (McCormick on its usual domain). It is wrong for Drop wave and Schwefel, and for McCormick and Eggholder on the whole plane.", "quantifier": "all points of the right size, all dimensions of the n-dimensional problems", "why_tests_cant": "continuum", "anchors": ["include/ensmallen_bits/problems/*_function.hpp: GetFinalPoint, GetFinalObjective"]}
{"id": "C51", "title": "Lookahead semantics", "statement": "Lookahead calls the base optimizer with iteration limit k on a copy of its iterate in every round, then moves the iterate by stepSize*(fast-slow) with the step size the decay policy has just set, makes at most maxIterations rounds (0: no limit), ends with the fast iterate and its objective as soon as the objective is NaN, infinite or within the tolerance of the previous one, ends after the first StepTaken request to stop, and with exactObjective returns the sum over all batches at the final iterate. On a convex function bounded below, with a constant step size in [0,1], a base optimizer that brings the excess over the bound down to at most q times what it was makes every round of Lookahead bring it down to at most 1 - step + step*q times; so Lookahead never raises a convex objective if its base optimizer does not.", "quantifier": "every base optimiser result sequence and callbacks", "why_tests_cant": "all histories", "anchors": ["include/ensmallen_bits/lookahead/lookahead_impl.hpp: Optimize (70-209)"]}
{"id": "C52", "title": "SWATS switches from Adam to SGD at most once and only when its criterion holds", "statement": "SWATS performs Adam steps as long as no earlier history of updates met the switching criterion (projected rate defined, bias-corrected average within epsilon of it, more than one update); at the first history that meets it SWATS enters the SGD phase, never leaves it, and from then on moves by momentum SGD with the constant step (1 - beta1) * average rate reached at the switch. (Refuted: that a new optimization with the same object starts with Adam again.)", "quantifier": "every dimension, parameters and history of step sizes and gradients", "why_tests_cant": "unbounded histories", "anchors": ["include/ensmallen_bits/swats/swats_update.hpp: Update (124-169)"]}
{"id": "C53", "title": "SVRG inner updates are unbiased and index-safe", "statement": "Every SVRG call that returns evaluates, in each outer iteration, the objective and the average gradient at the snapshot over batches containing every function exactly once, and then takes inner steps x - stepSize * (full + (g(x) - g(x0)) / batch), both gradients over the same in-range batch, cycling through the functions until innerIterations functions have been visited; it makes at most maxIterations outer iterations, returns the last snapshot objective (with exactObjective the objective of the final point), takes no step after a stop request, and over the batches of a pass the update is an unbiased estimate of a gradient-descent step on the average function.", "quantifier": "every separable function, decay policy, callback, batch size, iteration limits and starting point", "why_tests_cant": "integer residues", "anchors": ["include/ensmallen_bits/svrg/svrg_impl.hpp: Optimize", "include/ensmallen_bits/svrg/svrg_update.hpp: Update"]}
{"id": "C54", "title": "SARAH and Katyusha batch safety and update rule", "statement": "A call of SARAH or Katyusha that returns has made at most maxIterations rounds over the data following the documented recursions: SARAH's v := v + (g(x) - g(previous x))/c, x := x - eta v after the average gradient step; Katyusha's coupling x = tau1 z + tau2 x0 + (1-tau1-tau2) y, z := z - alpha (full + (g(x)-g(x0))/b) and its y and weighted-snapshot updates. Both gradients of a step use the same batch, batches are in range and cover the data, and the calls return. False, and refuted: SARAH's estimator is the gradient for full batches; every SARAH move is reported; Katyusha's update is unbiased when the last batch is smaller; its snapshot weights add up to one (it leaves a minimum it starts at); its full gradient belongs to one point.", "quantifier": "every function, callback, batch size > 0, parameters, starting point, run", "why_tests_cant": "integer residues", "anchors": ["include/ensmallen_bits/sarah/sarah_impl.hpp: Optimize", "include/ensmallen_bits/sarah/sarah_update.hpp", "include/ensmallen_bits/katyusha/katyusha_impl.hpp: Optimize"]}
{"id": "C55", "title": "Big-batch SGD batch growth is index-safe", "statement": "BigBatchSGD with a positive batch size never evaluates a function index outside [0, NumFunctions()); the batches whose objective it sums run through the functions cyclically without gap or repetition; the batch size never shrinks and a grown batch stays below NumFunctions(); every accepted step size is the first of the tried ones that meets the Armijo condition on the batch; maxIterations is passed only by the growth of the last batch. The gradient of a grown batch counts one function twice and omits the last (refuted), a batch of one never grows in double precision, AdaptiveStepsize makes an unreported move (refuted).", "quantifier": "every function, callback, policy, growth rule, batch size and starting point", "why_tests_cant": "data-dependent integer histories", "anchors": ["include/ensmallen_bits/bigbatch_sgd/bigbatch_sgd_impl.hpp: Optimize", "include/ensmallen_bits/bigbatch_sgd/adaptive_stepsize.hpp", "include/ensmallen_bits/bigbatch_sgd/backtracking_line_search.hpp"]}
{"id": "C56", "title": "SPALeRA SGD preserves the iterate's shape and its Page-Hinkley test", "statement": "SPALeRASGD's step-size policy, started fresh with a threshold that is not negative, keeps the iterate's number of elements and the learning rates positive for every sequence of updates; each update either multiplies the rates by positive factors and steps along the gradient, or, exactly when the Page-Hinkley test on the objectives since the last change exceeds the threshold, halves the rates and goes back to the iterate before the previous step. Objectives that never increase are never taken for a change. A run that returns reports as documented: every evaluation is in range, steps follow the policy, stop requests are honoured, and the run always ends. With a negative threshold (the average initial objective is negative) the iterate is emptied, and the first epoch's objective includes the initial pass: the naive claims are refuted.", "quantifier": "every objective/gradient history", "why_tests_cant": "histories", "anchors": ["include/ensmallen_bits/spalera_sgd/spalera_stepsize.hpp: Update", "include/ensmallen_bits/spalera_sgd/spalera_sgd_impl.hpp"]}
{"id": "C57", "title": "IQN aggregates equal the sums over all functions", "statement": "A call of IQN's Optimize that returns visits, in every iteration, every batch of functions once in order and then evaluates every function once at the point it reached; it stops after maxIterations - 1 iterations, at the tolerance or on a stop request between iterations, and returns the average objective at the final point (0 if there was no iteration). On a row-vector iterate with a linear solver that solves, every step goes to stepSize z + (1 - stepSize) x where the gradients of the per-batch quadratic models (BFGS Hessians of each batch's own history) sum to a constant at z, which is 0 when batchSize divides the number of functions: the maintained aggregates equal the sums of the per-batch quantities. Every Hessian approximation is symmetric, meets the secant equation and is positive definite under positive curvature. (It does not hold that IQN works on column vectors, nor that its fixed point is stationary when the last batch is smaller.)", "quantifier": "every separable function, callback, batch size, initial and random point, number of iterations and history", "why_tests_cant": "histories", "anchors": ["include/ensmallen_bits/iqn/iqn_impl.hpp: Optimize"]}
{"id": "C58", "title": "Eve objective-driven decay stays within its clip range", "statement": "Eve's decay coefficient is the beta3-average (started at 1) of the relative objective changes clipped to [1/clip, clip], so for clip >= 1 it always stays in that interval and is positive; every iterate is reached by Adam steps divided by it; at most maxIterations functions are visited; every run terminates; a stop request after an evaluation suppresses the step. A run goes on to another pass exactly while the objective sum of the finished pass is finite and not within the tolerance of the pass before; it returns the sum of the pass at which that fails, and otherwise, when the limit or a stop request ends it, the objective of all functions at the final iterate (exactObjective) or the running sum - which is 0 after a stop request made at the end of a pass.", "quantifier": "every objective, callback, configuration and run", "why_tests_cant": "histories", "anchors": ["include/ensmallen_bits/eve/eve_impl.hpp: Optimize"]}
{"id": "C59", "title": "Optimisers that are reused start afresh", "statement": "An optimizer object can be used again: after any number of Optimize() calls with any functions, callbacks and starting points, a call shows the caller (value, iterate, events) exactly what it would on a new object. This holds for SGD with resetPolicy, NoDecay and an update policy whose state is all in the instantiated policy; for L-BFGS and (multipliers given) the augmented Lagrangian method as long as no callback of an earlier call asked to stop, and (none given) if moreover no earlier call returned true, Lambda() and Sigma() changing only then; for SVRG without decay, SARAH and Katyusha on functions with the same number of components; for SPALeRASGD with resetPolicy and NoDecay; for PSO on iterates of one size with more than one row, if every PSO object in the program has the same factors. It is false, by members that outlast the call, for ParallelSGD with ExponentialBackoff (a second, not longer call keeps the smallest step size of the first), PSO on one row, PSO after an object with other factors, DemonSGD, WNGrad, SWATS, SGDR, SnapshotSGDR, SA, BigBatchSGD, for L-BFGS and AugLagrangian after a stopped call, for AugLagrangian's overload without multipliers after a converged call, and for innerIterations = 0 with another number of functions.", "quantifier": "every history of earlier calls on the object (functions, callbacks, starting points), every later call", "why_tests_cant": "call histories", "anchors": ["include/ensmallen_bits/sa/sa_impl.hpp: SA::Optimize", "include/ensmallen_bits/lbfgs/lbfgs_impl.hpp: terminate", "include/ensmallen_bits/aug_lagrangian/aug_lagrangian_impl.hpp: terminate", "include/ensmallen_bits/svrg/svrg_impl.hpp: innerIterations", "include/ensmallen_bits/cmaes/cmaes_impl.hpp: functionEvaluations", "include/ensmallen_bits/sgdr/sgdr_impl.hpp"]}
{"id": "C60", "title": "maxIterations = 0 means no limit", "statement": "maxIterations = 0 imposes no iteration limit: watched for any number of rounds below 2^64-1, a call with maxIterations = 0 does, reports and returns exactly what it would with any limit too large to be reached. This holds for SGD (and everything built on it), Eve, gradient descent, CD, Frank-Wolfe, L-BFGS (with no bound on the rounds), the augmented Lagrangian method, parallel SGD, the primal-dual SDP solver, SVRG, SARAH, Katyusha, Lookahead, IQN, SPALeRA, big-batch SGD and CMA-ES. SPSA, simulated annealing, the Frank-Wolfe line search and DemonSGD document the same and do not do it: SPSA and SA take no step, the line search does not move, DemonSGD turns the iterate into NaN.", "quantifier": "every objective, callback, policy, configuration, starting point and number of rounds", "why_tests_cant": "requires unbounded runs", "anchors": ["include/ensmallen_bits/sgd/sgd_impl.hpp", "include/ensmallen_bits/gradient_descent/gradient_descent_impl.hpp", "include/ensmallen_bits/spsa/spsa_impl.hpp", "include/ensmallen_bits/sa/sa_impl.hpp", "include/ensmallen_bits/cd/cd_impl.hpp"]}
{"id": "C61", "title": "Every optimiser reports EndOptimization exactly once", "statement": "Each Optimize() call that returns normally calls BeginOptimization exactly once with the starting point and EndOptimization exactly once, with the final point and after every other callback. SGD (all policies), Eve, SVRG, SARAH, Katyusha, big-batch SGD, SPALeRA, ParallelSGD, gradient descent, SPSA, coordinate descent, Frank-Wolfe, PSO, NSGA2, MOEA/D and Lookahead (for its own calls) call BeginOptimization before every other callback; SA, DE, CNE, CMA-ES, L-BFGS, IQN and the augmented Lagrangian first make evaluation callbacks. Exceptions: the primal-dual SDP solver makes no EndOptimization call when it converges; restarted CMA-ES with n runs makes n and n+1 calls; Lookahead's inner runs make both calls again.", "quantifier": "every modelled optimizer, function, starting point, callbacks and stopping reason", "why_tests_cant": "all exit paths", "anchors": ["include/ensmallen_bits/*/\u2026_impl.hpp: Optimize"]}
{"id": "C62", "title": "FTML and Demon updates", "statement": "With an iteration counter that starts at 0, FTML's iterate minimises the discounted proximal objective of the documented follow-the-moving-leader method after every history; the code leaves the counter uninitialised and the result depends on its value. Demon's coefficient starts at beta, never increases, stays in [0, beta] and reaches 0 after momentumIterations updates, but leaves that range afterwards, and it scales the iterate rather than a momentum buffer. The constructors of DemonSGD and DemonAdam set momentumIterations to maxIterations * batchSize, so that with batches of two or more functions the coefficient never falls below the value for the decay rate 1 - 1/batchSize during a run, and never reaches 0.", "quantifier": "every gradient sequence", "why_tests_cant": "unbounded sequences", "anchors": ["include/ensmallen_bits/ftml/ftml_update.hpp: Policy", "include/ensmallen_bits/demon_sgd/demon_sgd_update.hpp: Update", "include/ensmallen_bits/demon_adam/demon_adam_update.hpp"]}
{"id": "C63", "title": "The iterate of SGD moves only by the update policy", "statement": "Every batch objective and gradient is evaluated at the current iterate; each step applies the update policy once, with the current step size and the gradient as the Gradient callbacks left it, and then the decay policy once; nothing else changes the iterate, the policy state or the step size.", "quantifier": "every objective function, update policy, decay policy, callback behaviour and configuration", "why_tests_cant": "tests use a handful of policies; a stale gradient or a skipped decay at epoch boundaries is only visible for particular policies", "anchors": ["include/ensmallen_bits/sgd/sgd_impl.hpp: SGD::Optimize (139-163)"]}
{"id": "C64", "title": "AGE-MOEA keeps n individuals within the bounds, matches front to set, and is elitist", "statement": "For every multi-objective function without NaN values, every bound pair, every sequence of random draws and every callback: a call of AGEMOEA::Optimize() with at least four individuals and at least one generation that returns leaves exactly populationSize individuals in ParetoSet(), all taken from the parents and children of the last generation and all within the bounds; slice i of ParetoFront() is the objective vector of slice i of ParetoSet(); the returned value is not above the sum of the objectives of any of them; callbacks see BeginOptimization, at most maxGenerations generations, EndOptimization, and a stop request ends the run at that generation. With distances that are non-negative numbers every loop ends. If different individuals of the last generation are more than epsilon apart, no dropped individual dominates a kept one, and within a front no dropped individual has a larger survival score than a kept one. The extreme points of a front with more members than objectives are all different, one per objective, each nearest to its axis among those not chosen before. One to three individuals are refused by an exception. The following are false and refuted: that the iterate can always be set (population[fronts[0][0]] is read past the end when every parent is dominated by a child), that the iterate or ParetoFront() is non-dominated, that the returned value is attained, that callbacks see the objectives of the individuals, that maxGenerations = 0 or populationSize = 0 is usable.", "quantifier": "every objective list, population size, number of generations, bounds, random draws, power/log/solve functions, sort implementation, stop schedule and starting point", "why_tests_cant": "the population histories depend on random draws; a test sees a handful of them and the past-the-end read needs a particular one", "anchors": ["include/ensmallen_bits/agemoea/agemoea_impl.hpp: Optimize (67-249), BinaryTournamentSelection, Crossover, Mutate, NormalizeFront, GetGeometry, PairwiseDistance, FindExtremePoints, DiversityScore, SurvivalScoreAssignment"]}
{"id": "C65", "title": "CMA-ES samples from a valid covariance matrix, adapted by the published rule (with the inverse where its square root belongs)", "statement": "Over the reals, with Cholesky and symmetric eigenvalue routines that meet their contracts, for every number of variables, at least two members, every objective, random numbers and ranking: the recombination weights are positive, decreasing and sum to 1; the learning rates are the published ones and make the new matrix a convex combination; after any number of generations of CMAES or ActiveCMAES the matrix is symmetric and positive semidefinite and the step size is positive; each generation draws lambda vectors L z with L L' that matrix (plus the smallest number on the diagonal if it is singular); each generation of CMAES changes the paths, the matrix and the step size by the published formulas except that the step-size path receives C^-1 times the step, and the repair of negative eigenvalues never acts; ActiveCMAES adds the best and subtracts the worst quarter, and if any direction then has negative variance its next matrix is zero and its next population is drawn from epsilon times the identity; every run comes to an end. Refuted: that the step-size path uses C^-1/2 as published; that the repair of ActiveCMAES keeps the directions of positive variance; that ActiveCMAES is usable with fewer than four members (the mean stops being finite after one generation).", "quantifier": "every dimension, population size >= 2, objective, transformation, random numbers, ranking, callbacks, limits, and every number of generations", "why_tests_cant": "validity of the matrix must survive every sequence of random draws and rankings; tests see only a few and only the final point", "anchors": ["include/ensmallen_bits/cmaes/cmaes_impl.hpp: Optimize (98-200 set-up, 204-226 sampling, 252-345 adaptation)", "include/ensmallen_bits/cmaes/active_cmaes_impl.hpp: Optimize (98-122, 245-326)"]}
{"id": "C66", "title": "Frank-Wolfe updates that keep atoms are least squares over the atoms kept", "statement": "FuncSq evaluates (1/2)|Ax-b|^2 and its Gradient is the gradient. UpdateSpan returns the best combination of the atoms it keeps; without pruning those are all earlier directions and the new one; with pruning at least one is kept and the objective is at most the larger of the best over all of them and 1/4 f(old) + 3/4 best. Over repeated steps every point is a combination of directions seen, and the objective does not rise from the second step on. The first pruning pass compares what leaving each atom out costs. UpdateFullCorrection always returns, keeps every atom, leaves the coefficients with 1-norm at most tau, and reaches them from an exact line search step (at most 1) by at most 99 projected gradient passes that stop at the first gaining less than the tolerance. Refuted: that the first UpdateSpan step does not raise the objective; that UpdateSpan stays in the constraint set; that pruning always drops the cheapest atom; that UpdateFullCorrection ends no worse than its line search.", "quantifier": "every A, b, atoms, direction, previous point, tau, step size, tolerance, least-squares solver, index_min and sort meeting their contracts, and every sequence of directions, over the reals", "why_tests_cant": "optimality over a span and monotone descent quantify over all coefficient vectors and all histories of directions", "anchors": ["include/ensmallen_bits/fw/func_sq.hpp: FuncSq", "include/ensmallen_bits/fw/atoms.hpp: Atoms::AddAtom, RecoverVector, PruneSupport, ProjectedGradientEnhancement", "include/ensmallen_bits/fw/update_span.hpp: UpdateSpan::Update", "include/ensmallen_bits/fw/update_full_correction.hpp: UpdateFullCorrection::Update"]}
{"id": "C67", "title": "What the reporting callbacks show, and when TimerStop stops", "statement": "PrintLoss prints the objective of every epoch that ends. TimerStop makes SGD take no further step after the first epoch that ends more than its duration after BeginOptimization. QueryFront keeps the first fronts of generations 0, rate, 2 rate, ... Report shows, for every run in which the first gradient comes before the first iteration ends, one row per k-th iteration (epochs if any ended, else steps) with its loss, change, gradient norm, step size and time, the first and last loss, and the exact numbers of iterations, epochs and calls; an object used for two runs reports on both together. A long column vector is shown by its first size-1 elements and the last. ProgressBar with a width from 1 to 100 shows at step k the count, floor(100 k / steps) percent, a bar with marks every floor(100/width) percent, and the summed loss divided by k+1. Refuted: Report never reads out of range; 'Reached maximum iterations' is right; iterationsPercentage is the share of iterations shown; matrices are truncated correctly; ProgressBar(70) is 70 wide; every width and every query rate works; the loss shown is a mean.", "quantifier": "every sequence of events, clock, percentage, width, batch size, rate; the bar over the reals", "why_tests_cant": "the output depends on the whole history of events and on the clock", "anchors": ["include/ensmallen_bits/callbacks/print_loss.hpp", "include/ensmallen_bits/callbacks/timer_stop.hpp", "include/ensmallen_bits/callbacks/progress_bar.hpp", "include/ensmallen_bits/callbacks/report.hpp", "include/ensmallen_bits/callbacks/query_front.hpp"]}
{"id": "C68", "title": "The Pareto-optimal points of the multi-objective test problems", "statement": "The feasible Pareto-optimal points of ZDT1, 2, 4, 6 are exactly those whose other variables are 0; those of DTLZ1-4, MAF1, MAF3, MAF4 (a > 0), MAF5 (integer a > 0) and MAF6 (I >= 2) exactly those whose distance variables are 1/2, with sum 1/2 (DTLZ1) or sum of squares 1/4 (DTLZ2-4) there; of Schaffer N.1 exactly [0, 2]; of Fonseca-Fleming exactly (t,t,t) with |t| <= 1/sqrt 3. Optimal points of ZDT3 and DTLZ7 have other variables 0; points of DTLZ5 (DTLZ6) with distance variables 1/2 (0) are optimal and share one objective vector. GetObjectives agrees with Evaluate for ZDT, DTLZ7, MAF (MAF4 with whole a), Schaffer N.1 and Fonseca-Fleming; for DTLZ1-6 the exact relation is given. GetReferenceFront of ZDT1, 2, 4 and DTLZ1 consists of values of Pareto-optimal points, that of ZDT3 of values on its curve, that of ZDT6 of undominated vectors. Refuted: an optimizer given DTLZ1-4 is solving that problem (its only optimal vector is 0); DTLZ7 has its optimum at 1/2; the documented optima of DTLZ5 are all; MAF2 reads its distance variables; MAF4 honours a fractional a; MAF5 honours a < 1; the reference fronts of DTLZ2-4 are returned.", "quantifier": "every feasible point, every number of front points, every parameter of the problem; real arithmetic", "why_tests_cant": "optimality quantifies over all competing points of a continuous box; tests compare a run against a region", "anchors": ["include/ensmallen_bits/problems/zdt", "include/ensmallen_bits/problems/dtlz", "include/ensmallen_bits/problems/maf", "include/ensmallen_bits/problems/schaffer_function_n1.hpp", "include/ensmallen_bits/problems/fonseca_fleming_function.hpp"]}
{"id": "C69", "title": "Gradient descent: descent, stationarity and convergence rates", "statement": "Let f have an L-Lipschitz gradient on R^n and let the step size be at most 1/L, with callbacks that do not alter gradients. Then every GradientDescent run lowers the objective at each step by at least step/2 |gradient|^2 and returns a point no worse than the start; the squared gradients of all evaluations sum to at most 2 (f(x0) - inf f)/step; a stop by the tolerance implies |gradient|^2 < 2 tolerance/step one evaluation earlier; with a positive tolerance at most 2 + (f(x0) - inf f)/tolerance evaluations are made even without an iteration limit. If f is convex, after k steps f(x_k) - f(y) <= |x0 - y|^2/(2 step k) for every y, and no step leads away from a minimiser; if f is mu-strongly convex the squared distance to the minimiser shrinks by the factor 1 - step mu per step. Refuted: descent for every positive step size.", "quantifier": "every dimension, every smooth function, start, step size up to 1/L, tolerance, iteration limit and callback stop pattern; exact real arithmetic", "why_tests_cant": "a rate is a statement about all functions of a class and all iteration counts; tests observe that single runs end near a known optimum", "anchors": ["include/ensmallen_bits/gradient_descent/gradient_descent_impl.hpp GradientDescent::Optimize"]}
{"id": "C70", "title": "Frank-Wolfe with the classic rule converges at rate 1/k", "statement": "On a convex set of squared diameter at most D2, for a convex function with an L-Lipschitz gradient there, a solver that solves the linear subproblems and callbacks that do not alter gradients, the k-th evaluated objective of FrankWolfe with UpdateClassic (k counted from 0), and likewise the point returned after k steps, exceed f(y) by at most max(2 L D2, 3 (f(x0) - f(y)))/(k + 3), for every y in the set. Refuted: every step lowers the objective.", "quantifier": "every dimension, convex set, smooth convex function, start in the set, comparison point, iteration limit, tolerance and callback stop pattern; exact real arithmetic", "why_tests_cant": "a rate is a statement about all functions, sets and iteration counts", "anchors": ["include/ensmallen_bits/fw/frank_wolfe_impl.hpp FrankWolfe::Optimize", "include/ensmallen_bits/fw/update_classic.hpp UpdateClassic"]}
{"id": "C71", "title": "Regret of SGD and AdaGrad on convex functions", "statement": "For convex (not necessarily differentiable) batches whose reported gradients are subgradients, and callbacks that do not alter gradients: the sum of all batch objectives reported by plain SGD, minus the cost of the same batches at any fixed point y, is at most (|x0-y|^2 - |x_final-y|^2)/(2 step) + step/2 times the sum of the squared gradients; over p whole passes of a finite sum the cost at y is p times the full objective at y. For AdaGrad, while the evaluated points stay within D of y in each coordinate, it is at most (D^2/(2 step) + step) * sum_i sqrt(sum of squared i-th gradient entries) + n D^2 epsilon/(2 step).", "quantifier": "every dimension, number of functions, batch size, shuffling, step size, limit, tolerance, stop pattern, start and comparison point; exact real arithmetic", "why_tests_cant": "the bound ranges over all convex problems, orders and run lengths", "anchors": ["include/ensmallen_bits/sgd/sgd_impl.hpp SGD::Optimize", "include/ensmallen_bits/sgd/update_policies/vanilla_update.hpp", "include/ensmallen_bits/ada_grad/ada_grad_update.hpp"]}
{"id": "C72", "title": "DE, CNE, PSO, CMA-ES and grid search use the objective only through comparisons", "statement": "Replace the objective by another one that orders all points alike (in particular by any strictly increasing function of it). Then, with the same random numbers, callbacks that do not look at objective values and a tolerance that no change is below (0, say), DE, CNE, PSO (with LBestUpdate or any policy that only compares), CMA-ES and ActiveCMAES with FullSelection, and grid search evaluate the same points in the same order, report the same steps to the callbacks and return the same point; the value returned is the new objective at the corresponding place. With a tolerance that matters this is false.", "quantifier": "every pair of objectives ordered alike, element type, population size, number of generations, random stream, sorting routine that only compares, covariance adaptation, starting point and value-blind callback", "why_tests_cant": "it relates two runs on every pair of order-equivalent objectives", "anchors": ["include/ensmallen_bits/de/de_impl.hpp DE::Optimize", "include/ensmallen_bits/cne/cne_impl.hpp CNE::Optimize", "include/ensmallen_bits/pso/pso_impl.hpp PSOType::Optimize", "include/ensmallen_bits/pso/update_policies/lbest_update.hpp", "include/ensmallen_bits/cmaes/cmaes_impl.hpp CMAES::Optimize", "include/ensmallen_bits/cmaes/active_cmaes_impl.hpp", "include/ensmallen_bits/grid_search/grid_search_impl.hpp"]}
{"id": "C73", "title": "The adaptive methods take bounded steps, whatever the gradients", "statement": "In exact arithmetic, and after any history of gradients and step sizes, an update with step size h moves no coordinate by more than C h, where C depends only on the decay rates: sqrt((1-beta1)/(1-beta2)) for Adam and AMSGrad (10 with the defaults) when beta1 <= beta2 < 1, three times that for OptimisticAdam, sqrt(max((1-v1)/(1-v2), v1(1-beta1)/((1-beta2)v2))) for QHAdam, 1/sqrt(1-beta2) + beta1/(1-beta1) sqrt((1-beta1)/(1-beta2)) for NAdam, beta2/(beta2-beta1) for AdaMax, 1 + beta1 beta2/(beta2-beta1) for NadaMax, sqrt(max((1-beta1)/(1-beta2), (1-beta1)/(beta2-beta1))) for Yogi, 1 for AdaGrad, 1/sqrt(1-alpha) for RMSProp; sqrt(t)/(2 sqrt(eps)) at the t-th update for AdaSqrt. WNGrad moves no coordinate by more than 1/2, whatever the step size. Hence a run of SGD with any of the former and a constant step size ends within C times the step size times the number of updates of its start, coordinate by coordinate, and successive iterates are within C times the step size. Adam does exceed the step size, has no bound at all if beta2 is below beta1 (0 and 1/2, say), and AdaBelief has none.", "quantifier": "every history of gradients and step sizes, every gradient however large, all decay rates in the stated ranges, eps > 0, every separable function and gradient-rewriting callback that keep the dimension, every batch size, iteration limit and shuffle", "why_tests_cant": "the worst gradient history is not one a test would produce, and the bound must hold for all of them", "anchors": ["include/ensmallen_bits/adam/adam_update.hpp", "include/ensmallen_bits/adam/amsgrad_update.hpp", "include/ensmallen_bits/adam/adamax_update.hpp", "include/ensmallen_bits/adam/nadam_update.hpp", "include/ensmallen_bits/adam/nadamax_update.hpp", "include/ensmallen_bits/adam/optimisticadam_update.hpp", "include/ensmallen_bits/qhadam/qhadam_update.hpp", "include/ensmallen_bits/yogi/yogi_update.hpp", "include/ensmallen_bits/ada_grad/ada_grad_update.hpp", "include/ensmallen_bits/ada_sqrt/ada_sqrt_update.hpp", "include/ensmallen_bits/rmsprop/rmsprop_update.hpp", "include/ensmallen_bits/wn_grad/wn_grad_update.hpp", "include/ensmallen_bits/ada_belief/ada_belief_update.hpp", "include/ensmallen_bits/sgd/sgd_impl.hpp SGD::Optimize"]}
{"id": "C74", "title": "Softmax regression: objective, gradients, convexity, and what its batch and shuffle methods do", "statement": "In exact arithmetic: Evaluate() of the softmax regression problem is the average of minus the log-probability of the labels plus lambda/2 times the squared norm of the parameters, is never negative, and the class probabilities are positive and sum to one. Gradient() is its gradient with and without intercept; Gradient() of a batch is the gradient of the documented objective of the batch; without intercept PartialGradient(j) is column j of Gradient(). The objective lies above each of its linearisations (by lambda/2 times the squared distance at least), so parameters with zero gradient are a global minimum. The objectives of the single samples add up to the number of samples times the full objective. Evaluate() of a batch throws unless there are as many classes as features, and then its regularisation is not the documented one; PartialGradient() with an intercept uses the wrong feature and throws for the last; Shuffle() throws whenever there are more samples than classes and otherwise separates samples from their labels.", "quantifier": "every data set, labelling, number of classes, lambda, intercept flag, parameter matrix, batch and ordering", "why_tests_cant": "gradient, convexity and global optimality are statements about all parameters and data sets; the only test of it in the repository checks PartialGradient() without intercept at random points", "anchors": ["include/ensmallen_bits/problems/softmax_regression_function.hpp", "include/ensmallen_bits/problems/softmax_regression_function_impl.hpp"]}
{"id": "C75", "title": "Which individuals survive a generation of NSGA-II", "statement": "Exact arithmetic. For a front in which no two members agree in an objective, the crowding distance of a member is at least the largest number if it is extreme in some objective and otherwise the sum over the objectives of the distance between its neighbours divided by the range. In every generation, if different individuals differ by more than epsilon and no two parents agree in an objective, a parent without a copy among the children survives exactly if no parent dominates it; so if no child is a copy of a parent, every parent is matched in all objectives by a survivor. Children are kept whatever their objectives, also when parents that dominate them are dropped, and a best parent with a copy among the children can be lost.", "quantifier": "every number and kind of objectives, population size at least four, number of generations, bounds, sequence of random draws, correct std::sort and callback", "why_tests_cant": "the claim ranges over all populations, draws and behaviours of std::sort on equivalent elements; a test sees one run", "anchors": ["include/ensmallen_bits/nsga2/nsga2_impl.hpp: Optimize, BinaryTournamentSelection, EvaluateObjectives, FastNonDominatedSort, CrowdingDistanceAssignment, CrowdingOperator"]}
{"id": "C76", "title": "What the Lovasz theta problem and the problems without a gradient compute", "statement": "LovaszThetaSDP: Evaluate is minus the squared length of the sum of the columns of the r by c matrix; there is one constraint more than there are edges; EvaluateConstraint(0) is the sum of squares minus one with GradientConstraint(0) its gradient; constraint k+1 is the absolute value of the inner product of the two columns of edge k, and GradientConstraint(k+1) is its gradient where that product is positive and minus its gradient where it is negative. Gradient raises an exception on every matrix that is not square, and at a symmetric matrix returns the gradient of the augmented Lagrangian with multipliers -n and -1 and penalty 1/2 rather than that of Evaluate. GetInitialPoint has min(V, k+1 or k+2) rows, where k is the rank the code's comment promises, so Gradient fails on the initial point of a five-cycle. Cross-in-tray has the documented value exactly where the sines have equal sign (it takes the absolute value after adding one); Hoelder table and Schaffer N.4 have the documented range and symmetries. The initial point of every graph has a trace above one, and by how much is given.", "quantifier": "every graph, every real matrix of every size, every point of the plane", "why_tests_cant": "The problems are only ever evaluated at a few points; the values and derivatives are claims about all matrices and all sizes.", "anchors": ["include/ensmallen_bits/problems/aug_lagrangian_test_functions_impl.hpp: LovaszThetaSDP", "include/ensmallen_bits/problems/cross_in_tray_function_impl.hpp: CrossInTrayFunction::Evaluate", "include/ensmallen_bits/problems/holder_table_function_impl.hpp: HolderTableFunction::Evaluate", "include/ensmallen_bits/problems/schaffer_function_n4_impl.hpp: SchafferFunctionN4::Evaluate"]}
{"id": "C77", "title": "Where the origin is, which way the axes point and how the objective is scaled", "statement": "In exact arithmetic, running SGD with one of the coordinate-wise policies on x -> k * f(sg (x - c)) (a sign and an offset for every coordinate, k > 0), from the image of the old starting point, gives k times the old value at the image of the old point, and every callback sees the image of what it saw before; for k other than 1 the tolerance must be off. The policies that allow it: plain, momentum, Nesterov and quasi-hyperbolic SGD with step size h/k; Adam, AMSGrad, AdaMax, Nadam, NadaMax, OptimisticAdam, QHAdam, Yogi, AdaGrad, RMSProp and FTML with epsilon multiplied by k (so with negligible epsilon they do not depend on the scale of the objective); AdaSqrt with step size k h; AdaBound and AMSBound with final rate divided by k; AdaDelta, SMORMS3, AdaBelief and Padam for k = 1. DemonSGD depends on the origin.", "quantifier": "every function, starting point, sequence of gradients, sign and offset vector, factor k > 0, batch size, iteration limit, shuffle and exactObjective setting, and callbacks that answer alike", "why_tests_cant": "The claim relates two runs for every objective, every change of coordinates and every length of run.", "anchors": ["include/ensmallen_bits/sgd/sgd_impl.hpp: SGD::Optimize", "include/ensmallen_bits/sgd/update_policies", "include/ensmallen_bits/adam", "include/ensmallen_bits/ada_grad/ada_grad_update.hpp", "include/ensmallen_bits/rmsprop/rmsprop_update.hpp", "include/ensmallen_bits/ada_bound/ada_bound_update.hpp", "include/ensmallen_bits/ftml/ftml_update.hpp", "include/ensmallen_bits/demon_sgd/demon_sgd_update.hpp"]}
{"id": "C78", "title": "SPSA's two-evaluation direction is the gradient on average, and SPSA converges on average on quadratics", "statement": "For a quadratic objective of d variables, the gradient estimate SPSA forms in iteration k from its two evaluations, averaged over the 2^d equally likely sign vectors, is exactly the gradient (for a general objective the average is off by at most the error of the symmetric differences divided by twice the evaluation step). If the curvature is at most L and every gain satisfies 0 <= a_k and a_k L d <= 2, no run returns a larger objective than it started with, whatever the coins, callbacks and tolerance; and if the curvature is also at least mu > 0 and nobody stops the run, the returned objective averaged over all coins of the run exceeds the objective at any point by at most the product of 1 - 2 mu a_k (1 - L a_k d/2) times the excess at the start.", "quantifier": "every dimension, quadratic objective, start, comparison point, gain and evaluation-step sequence within the bounds, number of iterations, and all outcomes of the coins", "why_tests_cant": "A test samples a few random directions; the claim is about the exact mean over all 2^(d n) outcomes and about every outcome at once.", "anchors": ["include/ensmallen_bits/spsa/spsa_impl.hpp: SPSA::Optimize"]}
{"id": "C79", "title": "Coordinate descent descends and converges at a linear rate", "statement": "If moving one column of the iterate by -h changes the objective by at most -<partial gradient, h> + L/2 |h|^2, and 0 < step size <= 2/L, then in every run of coordinate descent (any policy, tolerance, interval and stop requests, gradients not edited by callbacks) the objective falls by at least a(1 - aL/2) times the sum of the squared partial gradients stepped along, a being the step size. If in addition the gradient dominates the gap to the best value (2 mu (f(x) - f*) <= |grad f(x)|^2) and nobody stops the run, then with random features the returned objective averaged over all d^n feature sequences has gap at most (1 - 2 mu a(1 - aL/2)/d)^n times the initial gap, and with cyclic features, M being a Lipschitz constant of the partial gradients, p sweeps leave at most (1 - mu a(1 - aL/2)/(1 + d^2 M^2 a^2))^p of it. With the greedy policy there is no such rate: it can stay at the start for ever.", "quantifier": "every number and size of features, objective with the stated smoothness, step size within the bound, start, number of iterations or sweeps, and all feature sequences", "why_tests_cant": "A test observes that one problem got close to its optimum; the rate quantifies over all objectives of the class, all starts, all run lengths and, for the random policy, over every feature sequence.", "anchors": ["include/ensmallen_bits/cd/cd_impl.hpp: CD::Optimize", "include/ensmallen_bits/cd/descent_policies/random_descent.hpp: RandomDescent", "include/ensmallen_bits/cd/descent_policies/cyclic_descent.hpp: CyclicDescent", "include/ensmallen_bits/cd/descent_policies/greedy_descent.hpp: GreedyDescent"]}
{"id": "C80", "title": "Rotating the coordinate system, and reordering the coordinates", "statement": "Gradient descent, L-BFGS and SGD with plain steps, momentum, Nesterov momentum or quasi-hyperbolic momentum do not depend on the choice of an orthonormal coordinate system: on a function that has been rotated, reflected and shifted, started at the image of the starting point, they return the same objective at the image of the point they returned before and show the callbacks the images of the points and gradients they showed before (in exact arithmetic, with callbacks that treat the images alike; L-BFGS does so whatever its buffers contained). Adam does not have this property, for any choice of its parameters. SGD with any coordinate-wise policy, and gradient descent, respect every reordering of the coordinates, in floating-point arithmetic too.", "quantifier": "for every dimension, every linear map that keeps inner products, every shift, every function and its image, all parameters, callbacks, numbers of iterations and starting points; for reorderings also every arithmetic", "why_tests_cant": "A test compares one rotation of one function, up to rounding; the statement is about every rotation, every function and every length of run, and says that nothing a callback can see differs.", "anchors": ["include/ensmallen_bits/gradient_descent/gradient_descent_impl.hpp: GradientDescent::Optimize", "include/ensmallen_bits/lbfgs/lbfgs_impl.hpp: L_BFGS::Optimize", "include/ensmallen_bits/sgd/sgd_impl.hpp: SGD::Optimize", "include/ensmallen_bits/sgd/update_policies/momentum_update.hpp: MomentumUpdate", "include/ensmallen_bits/adam/adam_update.hpp: AdamUpdate"]}
{"id": "C81", "title": "An objective that is not finite ends the run", "statement": "When the objective becomes NaN or infinite, an optimizer does not go on as if nothing had happened. Gradient descent, coordinate descent, parallel SGD and Lookahead end the run at that evaluation and return a value that is not finite. SGD with any update and decay policy, Eve, big-batch SGD and SPALeRA finish the current epoch but neither begin another nor shuffle again, and (with exactObjective off; for SPALeRA when it reports convergence) return a value that is not finite. SVRG, SARAH, Katyusha and IQN finish computing the objective and take neither a gradient nor a step after it. SPSA takes no step after a step that led to such a point. L-BFGS shows its callbacks no NaN objective except at the starting point, where it returns at once. SPSA does not look at its perturbed evaluations, and L-BFGS does not stop at an infinite one.", "quantifier": "for every function, callbacks, policies, parameters, schedule of threads, starting point and length of run, in every arithmetic in which sums and quotients of values that are not finite are not finite (proved for IEEE doubles)", "why_tests_cant": "A test makes one function fail at one point; the statement is about a failure at any evaluation of any run, and about everything a callback sees afterwards.", "anchors": ["include/ensmallen_bits/gradient_descent/gradient_descent_impl.hpp: GradientDescent::Optimize", "include/ensmallen_bits/cd/cd_impl.hpp: CD::Optimize", "include/ensmallen_bits/parallel_sgd/parallel_sgd_impl.hpp: ParallelSGD::Optimize", "include/ensmallen_bits/lookahead/lookahead_impl.hpp: Lookahead::Optimize", "include/ensmallen_bits/sgd/sgd_impl.hpp: SGD::Optimize", "include/ensmallen_bits/eve/eve_impl.hpp: Eve::Optimize", "include/ensmallen_bits/bigbatch_sgd/bigbatch_sgd_impl.hpp: BigBatchSGD::Optimize", "include/ensmallen_bits/spalera_sgd/spalera_sgd_impl.hpp: SPALeRASGD::Optimize", "include/ensmallen_bits/svrg/svrg_impl.hpp: SVRGType::Optimize", "include/ensmallen_bits/sarah/sarah_impl.hpp: SARAHType::Optimize", "include/ensmallen_bits/katyusha/katyusha_impl.hpp: KatyushaType::Optimize", "include/ensmallen_bits/iqn/iqn_impl.hpp: IQN::Optimize", "include/ensmallen_bits/spsa/spsa_impl.hpp: SPSA::Optimize", "include/ensmallen_bits/lbfgs/lbfgs_impl.hpp: L_BFGS::Optimize"]}
{"id": "C82", "title": "Momentum methods make progress on convex functions, Adam need not", "statement": "Run with a fixed step size on convex batches, SGD with heavy-ball momentum, Nesterov momentum or quasi-hyperbolic momentum pays, in total over all evaluated batches, at most what the same batches cost at any other point y plus a multiple of |x0 - y|^2 / step and a multiple of step times the sum of the squared gradients, with constants depending only on the momentum parameters. No such bound holds for Adam: there are three linear functions on which every pass of Adam raises the objective, for every step size; AMSGrad with the same parameters lowers it on each pass.", "quantifier": "every dimension, every family of convex batches (differentiable or not), every momentum in [0,1), step size, start, comparison point, batch size, shuffling and stopping reason; for Adam and AMSGrad every step size, every epsilon up to 1/100 and every number of passes", "why_tests_cant": "A regret bound is a statement about every sequence of convex batches and every comparison point; a test sees one sequence. That Adam moves the wrong way for ever needs an induction over the passes.", "anchors": ["include/ensmallen_bits/sgd/sgd_impl.hpp: SGD::Optimize", "include/ensmallen_bits/sgd/update_policies/momentum_update.hpp: MomentumUpdate::Policy::Update", "include/ensmallen_bits/sgd/update_policies/nesterov_momentum_update.hpp: NesterovMomentumUpdate::Policy::Update", "include/ensmallen_bits/sgd/update_policies/quasi_hyperbolic_update.hpp: QHUpdate::Policy::Update", "include/ensmallen_bits/adam/adam_update.hpp: AdamUpdate::Policy::Update", "include/ensmallen_bits/adam/amsgrad_update.hpp: AMSGradUpdate::Policy::Update"]}
{"id": "C83", "title": "SVRG and SARAH converge linearly on strongly convex sums, whatever the order of the batches", "statement": "On a sum of functions whose gradients are Lipschitz with constant L and whose average is strongly convex with constant mu, with a fixed step size eta such that 4 * innerIterations * eta * L^2 <= mu (SARAH, SARAH+: innerIterations + 1), every step that SVRG, SARAH or SARAH+ reported brings the iterate closer to the minimiser by a factor 1 - eta mu / 4: after k reported steps the squared distance is at most ((1 - eta mu / 4)^k)^2 times the first one. No step is lost to an unlucky order: this holds for every shuffle, batch size, tolerance, iteration limit and point at which a callback stops the run.", "quantifier": "all sums of smooth functions with a strongly convex average, all orders the shuffles produce, batch sizes, inner lengths, step sizes below the bound, starting points, dimensions, tolerances, limits and stopping callbacks that leave the gradients alone; exact real arithmetic", "why_tests_cant": "the published rates hold in expectation, and a test sees a few random orders; the deterministic bound is a claim about every order of every sum and every run length", "anchors": ["include/ensmallen_bits/svrg/svrg_impl.hpp: SVRGType::Optimize", "include/ensmallen_bits/svrg/svrg_update.hpp: SVRGUpdate::Update", "include/ensmallen_bits/sarah/sarah_impl.hpp: SARAHType::Optimize", "include/ensmallen_bits/sarah/sarah_update.hpp: SARAHUpdate::Update", "include/ensmallen_bits/sarah/sarah_plus_update.hpp: SARAHPlusUpdate::Update"]}
{"id": "C84", "title": "Settings that turn one optimizer into another", "statement": "Momentum SGD and Nesterov momentum SGD with momentum 0 and quasi-hyperbolic SGD with v = 0 or momentum 0 run exactly as plain SGD (same value returned, same final point, same evaluations, steps and callbacks); quasi-hyperbolic SGD with v = 1 runs as momentum SGD with (1 - momentum) times the step size; with epsilon 0 QHAdam with v1 = v2 = 1 runs as Adam and Padam with partial 1/2 as AMSGrad. With a positive epsilon QHAdam(1, 1) is Adam with epsilon scaled by sqrt(1 - beta2^t) and QHAdam(0, 1) is RMSProp with epsilon and step size scaled so; the documented equivalences of QHAdam with Adam, RMSProp and Nadam are false. SGD whose batch holds every function reports the points of gradient descent, and SVRG whose batch holds every function those of gradient descent on the average, whatever the shuffles.", "quantifier": "every function, starting point, callbacks, batch size, iteration limit, tolerance, shuffling and step size; for the full-batch claims every number of rounds and order of the functions; for the false equivalences every positive epsilon, beta1, beta2 in (0, 1) and step size", "why_tests_cant": "A test compares two optimizers on a few functions; it cannot show that no function, callback or setting tells them apart, nor that a documented equivalence fails for every choice of the parameters.", "anchors": ["include/ensmallen_bits/sgd/update_policies/momentum_update.hpp: Update", "include/ensmallen_bits/sgd/update_policies/nesterov_momentum_update.hpp: Update", "include/ensmallen_bits/sgd/update_policies/quasi_hyperbolic_update.hpp: Update", "include/ensmallen_bits/qhadam/qhadam_update.hpp: Update", "include/ensmallen_bits/padam/padam_update.hpp: Update", "include/ensmallen_bits/rmsprop/rmsprop_update.hpp: Update", "include/ensmallen_bits/sgd/sgd_impl.hpp: Optimize", "include/ensmallen_bits/svrg/svrg_impl.hpp: Optimize", "doc/optimizers.md: QHAdam"]}
{"id": "C85", "title": "What an exception leaves in the caller's matrix", "statement": "At every point where the caller's function or a callback runs, and so could throw, the contents of the caller's iterate are known. For SGD (any update and decay policy), gradient descent and coordinate descent the iterate equals the point being shown and the point of the last reported step (the start if there is none). For L-BFGS it is the point of the last reported step, never a point tried by the line search. For SPSA it is the last step's point or differs from it by exactly the current perturbation c_k in every element; for simulated annealing it is the point being shown; for CNE it is the candidate being evaluated or shown; for differential evolution it is the start or a point whose objective has been reported. SPSA and simulated annealing can leave a point that was never reported as a step, and differential evolution and CNE a point that is not the best one seen.", "quantifier": "all functions, callbacks, settings, starts and random streams, and every call at which an exception could be thrown", "why_tests_cant": "the exception may come at any of the calls of any run, so there are unboundedly many crash points, and the perturbed iterate exists only between two calls", "anchors": ["include/ensmallen_bits/sgd/sgd_impl.hpp: SGD::Optimize", "include/ensmallen_bits/gradient_descent/gradient_descent_impl.hpp: GradientDescent::Optimize", "include/ensmallen_bits/cd/cd_impl.hpp: CD::Optimize", "include/ensmallen_bits/lbfgs/lbfgs_impl.hpp: L_BFGS::Optimize", "include/ensmallen_bits/spsa/spsa_impl.hpp: SPSA::Optimize", "include/ensmallen_bits/sa/sa_impl.hpp: SA::Optimize", "include/ensmallen_bits/de/de_impl.hpp: DE::Optimize"]}
{"id": "C86", "title": "SGD with a constant step size comes as close to the minimiser as the step size allows, whatever the order", "statement": "On a sum of n functions whose gradients are Lipschitz with constant L and whose average is strongly convex with constant mu and least at y, plain SGD with a constant step size h such that 8 h n L^2 <= mu ends its e-th pass within (1 - h n mu / 4)^e |x0 - y| + 8 h L s / mu of y, where s is the sum of the lengths of the gradients of the n functions at y; a run that stops inside a pass stops within 5/4 of the bound of the last complete pass plus 2 h s. If all functions are stationary at y the distance falls geometrically; any accuracy is reached by a small enough step size and enough passes. With a fixed step size the minimiser itself need not be reached nor kept: there are two functions for which every pass of a run started at the minimiser ends at least h^2 away from it.", "quantifier": "all sums of smooth functions with a strongly convex average, all orders the shuffles produce, batch sizes, step sizes below the bound, starts, dimensions, tolerances, limits and stopping callbacks that leave the gradients alone; exact real arithmetic", "why_tests_cant": "A test sees a few random orders of one sum; the bound is a claim about every order, every run length and every stopping point, and the negative claim about every number of passes.", "anchors": ["include/ensmallen_bits/sgd/sgd_impl.hpp: SGD::Optimize", "include/ensmallen_bits/sgd/update_policies/vanilla_update.hpp: VanillaUpdate::Policy::Update", "include/ensmallen_bits/sgd/decay_policies/no_decay.hpp: NoDecay::Policy::Update"]}
{"id": "C87", "title": "Parallel SGD on functions that share no element gives the same result for every schedule and number of threads", "statement": "Let every function of the sum depend on its own set of elements of the iterate, no two functions having an element in common. Then, with enough threads for all functions (threads times share size at least the number of functions), each epoch of ParallelSGD ends with exactly the iterate that one thread taking the functions in order would produce, bit for bit: every gradient used is the gradient at the start of the epoch, every element is changed at most once. With callbacks that do not ask to stop, two runs that differ in the number of threads, the share size, the shuffling, the interleaving of the threads and the age of the values read return the same objective and the same iterate. For SparseTestFunction over the reals the final iterate is given in closed form. Neither condition can be dropped: with one element in common the interleaving decides the result, and with too few threads the number of threads does.", "quantifier": "every number type (so with rounding), objective, step size schedule, tolerance, iteration limit, number of threads, share size, visitation order, interleaving of the threads and start, and every way in which a thread may see, element by element, values of different ages within the epoch", "why_tests_cant": "The interleavings and stale reads of a parallel run cannot be enumerated or forced by a test; a run that happens to agree with the serial one says nothing about the next.", "anchors": ["include/ensmallen_bits/parallel_sgd/parallel_sgd_impl.hpp: ParallelSGD::Optimize, UpdateLocation", "include/ensmallen_bits/problems/sparse_test_function_impl.hpp: SparseTestFunction"]}
{"id": "C88", "title": "Parallel SGD comes as close to the minimiser as SGD on one thread, whatever the schedule and the age of the values read", "statement": "On a sum of n functions whose gradients are Lipschitz with constant L and whose average is strongly convex with constant mu and least at y, ParallelSGD with a constant step size h such that 8 h n L^2 <= mu, and enough threads for all functions, ends its j-th epoch within (1 - h n mu / 4)^j |x0 - y| + 8 h L s / mu of y, where s is the sum of the lengths of the gradients of the functions at y: the bound of SGD on one thread. A gradient may be computed from values of different ages, element by element, as long as each is a value the element had during the epoch. If all functions are stationary at y the distance falls geometrically; any accuracy is reached by a small enough step size and enough epochs, the same for all schedules. A step size that is right for one thread need not be right for several: there are four functions and a step size for which one thread reaches the minimiser in one epoch while four threads move away from it for ever.", "quantifier": "every such sum, dimension, start, number of threads and share size covering the functions, visitation order, interleaving of the threads, age of the values read, tolerance, iteration limit and behaviour of the callbacks; real arithmetic", "why_tests_cant": "A test runs a few schedules that the machine happens to choose; the claim is about every interleaving and every delay, of which the harmful ones are rare, and about all functions and numbers of epochs.", "anchors": ["include/ensmallen_bits/parallel_sgd/parallel_sgd_impl.hpp: ParallelSGD::Optimize, UpdateLocation", "include/ensmallen_bits/parallel_sgd/decay_policies/constant_step.hpp: ConstantStep::StepSize"]}
{"id": "C89", "title": "How far parallel SGD can get with a decay policy", "statement": "With step sizes whose sums are bounded by S, ParallelSGD on n functions whose gradient elements do not exceed G within n G S of the start never leaves that box around the start, whatever the schedule of the threads and however old the values they read, and every epoch ends within n G times the sum of the remaining step sizes of the final iterate. The step sizes of ExponentialBackoff are bounded in this way: those of any number of epochs add up to less than step (firstBackoffEpoch - 1 + q beta / (1 - beta)), q the integer part of firstBackoffEpoch / beta. So a run with ExponentialBackoff does not reach a minimiser further away, however many epochs it makes (SparseTestFunction included), and the documented 1/k convergence rate does not hold.", "quantifier": "all sums of functions with a bound on the gradient elements near the start, all positive summable step sizes and all parameters of ExponentialBackoff with beta in (0, 1), all thread counts, share sizes, visitation orders, interleavings and element-wise stale reads, all callbacks, tolerances and iteration limits", "why_tests_cant": "A test runs one schedule on one function for some number of epochs; that the iterate stops short of the minimiser after every number of epochs and under every interleaving is not something a finite run can show.", "anchors": ["include/ensmallen_bits/parallel_sgd/decay_policies/exponential_backoff.hpp: ExponentialBackoff::StepSize", "include/ensmallen_bits/parallel_sgd/parallel_sgd_impl.hpp: ParallelSGD::Optimize", "include/ensmallen_bits/problems/sparse_test_function_impl.hpp: SparseTestFunction"]}
{"id": "C90", "title": "Parallel SGD converges when the step sizes tend to zero slowly enough", "statement": "On a strongly convex sum of functions with Lipschitz gradients, ParallelSGD with a decay policy whose step sizes are small enough (8 h n L^2 <= mu), tend to zero and have an unbounded sum converges to the minimiser: for every eps there is a number of epochs, the same for every schedule, number of threads, visitation order and age of the values read, from which on every epoch ends within eps of the minimiser. Each epoch obeys an explicit bound that depends only on the step sizes. Step sizes that merely tend to zero are not enough.", "quantifier": "all sums of functions with Lipschitz gradients and strongly convex average, all decay policies with step sizes as described, all starts, accuracies, thread counts, share sizes, orders, interleavings, element-wise stale reads, callbacks and limits", "why_tests_cant": "Convergence is a statement about all numbers of epochs and all interleavings of the threads; a test sees one of each.", "anchors": ["include/ensmallen_bits/parallel_sgd/parallel_sgd_impl.hpp: ParallelSGD::Optimize", "include/ensmallen_bits/parallel_sgd/parallel_sgd.hpp: ParallelSGD::DecayPolicy"]}
{"id": "C91", "title": "Simulated annealing with ExponentialSchedule: temperature and bounded rise of the energy", "statement": "With ExponentialSchedule (cooling speed lambda in (0, 1)) and initial temperature t0, SA leaves the temperature t0 (1 - lambda)^k after k reported steps, and, if no acceptance draw is below xi > 0, the value it returns exceeds the objective at the start by at most t0 (initMoves + 1/lambda) ln(1/xi). After the k-th reported step neither the value returned nor the objective at any later reported point exceeds the objective at that step by more than t0 (1 - lambda)^k / lambda ln(1/xi), so the search freezes geometrically. Without a lower bound on the draws there is no such bound.", "quantifier": "all objectives, starts, streams of random numbers with acceptance draws bounded away from zero, callbacks, move sizes, limits and tolerances; real arithmetic", "why_tests_cant": "The bound holds for every random stream and every number of iterations; a test sees one stream of finite length.", "anchors": ["include/ensmallen_bits/sa/sa_impl.hpp: SA::Optimize, SA::GenerateMove", "include/ensmallen_bits/sa/exponential_schedule.hpp: ExponentialSchedule::NextTemperature"]}
{"id": "C92", "title": "WNGrad converges for every step size", "statement": "For a differentiable objective whose gradient is Lipschitz with constant L and which is bounded below (convex or not), SGD with WNGradUpdate on batches that are the whole objective has, for every step size, every initial B() and every number of iterations: B() never decreases and stays below an explicit bound, the objective never exceeds its initial value by more than L^2/(2a) with a = B()/stepSize, and the squared gradients at all iterates have a sum below an explicit bound, so the smallest of the first k is of order 1/k. When NumFunctions() is 1 this needs no condition on the batches. Plain SGD has no such property: with step size 3 on x^2/2 it doubles the iterate in every step.", "quantifier": "all smooth objectives bounded below, all dimensions, step sizes, initial B(), starting points, iteration limits, tolerances and watching callbacks", "why_tests_cant": "continuum of objectives and step sizes, unbounded run length", "anchors": ["include/ensmallen_bits/wn_grad/wn_grad_update.hpp: WNGradUpdate::Policy::Update", "include/ensmallen_bits/sgd/sgd_impl.hpp: SGD::Optimize"]}
{"id": "C93", "title": "Big-batch SGD with the backtracking line search converges for every initial step size", "statement": "For a differentiable objective whose gradient is Lipschitz with constant L and which is bounded below (convex or not), BigBatchSGD with BacktrackingLineSearch, when the batch size is at least NumFunctions() and maxIterations a multiple of it, has for every initial step size and search parameter in (0,1) and every number of iterations: Optimize() returns, each line search ending after a number of halvings known in advance; StepSize() never grows and never falls below min(stepSize, (1 - searchParameter)/L), the final objective is not above the initial one, and the squared gradients at all points left behind have a sum below an explicit bound, so the smallest of the first k is of order 1/k.", "quantifier": "all smooth objectives bounded below and all ways to split them into functions, all dimensions, step sizes, search parameters, starting points, iteration limits, tolerances and callbacks that leave the gradients unchanged", "why_tests_cant": "continuum of objectives and step sizes, unbounded run length", "anchors": ["include/ensmallen_bits/bigbatch_sgd/bigbatch_sgd_impl.hpp: BigBatchSGD::Optimize", "include/ensmallen_bits/bigbatch_sgd/backtracking_line_search.hpp: BacktrackingLineSearch::Policy::Update"]}
{"id": "C94", "title": "Frank-Wolfe with the line search is a descent method with rate 1/k on convex quadratic functions", "statement": "On a convex quadratic function LineSearch (positive tolerance, at least one iteration) leaves the best point of the whole segment, or stays at the first end when the objective falls from there with a slope smaller than the tolerance. So Frank-Wolfe with UpdateLineSearch on such a function and a convex set of bounded diameter never raises the objective (the classic rule does, C70), and after k steps the objective exceeds that of any point of the set by at most M/(k+3) or at most the tolerance of the line search. On convex functions that are not quadratic a line search that ends by maxIterations can raise the objective (refuted).", "quantifier": "all convex quadratic functions, convex sets of bounded diameter, dimensions, starting points, iteration limits, tolerances, and callbacks that leave gradients alone", "why_tests_cant": "continuum of functions and sets, unbounded number of steps", "anchors": ["include/ensmallen_bits/fw/line_search/line_search_impl.hpp: LineSearch::Optimize, LineSearch::Derivative", "include/ensmallen_bits/fw/update_linesearch.hpp: UpdateLineSearch::Update", "include/ensmallen_bits/fw/frank_wolfe_impl.hpp: FrankWolfe::Optimize"]}
{"id": "C95", "title": "What AugLagrangian::Optimize() returns is nearly feasible and nearly optimal", "statement": "If AugLagrangian::Optimize() returns true and the inner optimizer, for penalty parameters above 500000, ends at points whose augmented Lagrangian is within eps of every other point's, then Sigma() is above 500000 and, with l = Lambda(), s = Sigma() and x the returned coordinates, for every point y that satisfies all constraints: f(x) <= f(y) + eps + |l|^2 / (2 s); the sum of the squared constraints at x is at most 4 (f(y) - f(x) + eps) / s + 4 |l|^2 / s^2; and if x satisfies the constraints then f(x) <= f(y) + eps. On a convex problem (convex objective, affine constraints, optimal multipliers m for the solution b) with an exact inner optimizer, success further implies that Lambda() is no further from m than the multipliers the call started with, that the sum V of the squared constraints is at most |l0 - m|^2 / s^2 and that (f(x) - f(b))^2 <= 2 (|m|^2 + |l0 - m|^2) V, with l0 the first multipliers. Convergence does not imply that true is returned: with an exact inner optimizer and the default parameters there is a problem on which, over the reals, the coordinates converge geometrically to the constrained minimum and the call returns false for every maxIterations and tolerance.", "quantifier": "all objectives, all lists of constraints, all inner optimizers with the stated accuracy (whatever their state and history), all parameters, starting points, first multipliers and penalty parameters, all callbacks and all feasible comparison points, over the reals", "why_tests_cant": "The bound is against every feasible point and for every objective and constraint list; a test has one known solution and cannot tell a feasible-looking stopping point from an optimal one. That success is never reported needs every iteration limit.", "anchors": ["include/ensmallen_bits/aug_lagrangian/aug_lagrangian_impl.hpp: AugLagrangian::Optimize", "include/ensmallen_bits/aug_lagrangian/aug_lagrangian_function_impl.hpp: AugLagrangianFunction::Evaluate", "include/ensmallen_bits/aug_lagrangian/aug_lagrangian.hpp: Lambda, Sigma"]}
{"id": "C96", "title": "AugLagrangian drives the constraint violation to zero at a geometric rate on convex problems", "statement": "Let the objective be convex, the constraints affine, b a solution with optimal multipliers m, and let the inner optimizer be exact. Let AugLagrangian::Optimize() start with multipliers l0 and penalty parameter s0, and let it report k >= 1 steps, however it ends and whatever it returns. For every q <= 1 with penaltyThresholdFactor <= q^2 and 1 / sigmaUpdateFactor <= q (the defaults allow q = 1/2), the sum V of the squared constraints at the returned coordinates x is at most |l0 - m|^2 / s0^2 * q^(k - 2), and (f(x) - f(b))^2 <= 2 (|m|^2 + |l0 - m|^2) V. From the first iteration on, no inner run ends at a point that violates the constraints more than the point it started from. The first iteration may increase the violation: started at the solution, it can leave it.", "quantifier": "all convex objectives, all lists of affine constraints with optimal multipliers, all exact inner optimizers, all parameters with sigmaUpdateFactor > 1 and penaltyThresholdFactor >= 0, all starting points, multipliers and positive penalty parameters, all callbacks, all numbers of iterations, over the reals", "why_tests_cant": "The rate must hold for every convex problem and every interleaving of multiplier moves and penalty increases; a test sees the interleaving of one problem.", "anchors": ["include/ensmallen_bits/aug_lagrangian/aug_lagrangian_impl.hpp: AugLagrangian::Optimize", "include/ensmallen_bits/aug_lagrangian/aug_lagrangian_function_impl.hpp: AugLagrangianFunction::Evaluate"]}
