# A Rocq model of ensmallen

Subject: the header-only C++ library in /repo (`include/ensmallen_bits`), read as text.
Nothing of it is compiled or run here; the only tie between the model and the code is
that every definition of the model cites the file and lines it transcribes.

## Layout

    rocq/theories/Base/      arithmetic record, vectors, generic loops, list lemmas
    rocq/theories/Model/     one file per component of the library: definitions only
    rocq/theories/Spec/      small independent specifications used in the statements
    rocq/theories/Proof/     lemmas
    rocq/theories/Props/     the property theorems: statement, `exact lemma.`,
                             `Print Assumptions`, and the examples that show the
                             hypotheses are met

## Modelling decisions

* **Arithmetic.** Control flow is modelled over a record `Num` (carrier plus the C++
  operations `+ - * / < <= == isnan isinf abs sqrt ...`, *no laws*).  Theorems about
  control flow therefore hold for every arithmetic, IEEE doubles included; where a law
  is needed it is an explicit hypothesis of the theorem (for example "`<` is
  transitive and irreflexive", which IEEE `<` satisfies).  Three instances are
  used: the real numbers (algebraic facts), `SpecFloat` binary64 (concrete IEEE
  behaviour with NaN and infinities, axiom free) and `Z` (executable examples).
* **Vectors and matrices** are lists (column-major where it matters); an iterate the
  control flow never looks into is an abstract type.  `arma::accu`/`dot` are left-to-right sums; Armadillo's
  actual association order is unspecified, so no theorem about floats depends on it.
* **User code** (objective functions, callbacks, shuffles, random numbers, step
  policies) are function arguments of the model, i.e. universally quantified in
  every theorem.  A callback pack is a function of the whole history of events, which
  covers every deterministic stateful callback.  Random draws are read from an
  arbitrary stream.
* **Loops** are iterations of a one-step function with explicit fuel; running out of fuel is a
  distinct outcome (`inl` of the intermediate state), never a normal result.
  Termination is a separate theorem where it holds.
* **Undefined behaviour** (integer `% 0`, out-of-range access, empty front()) and
  exceptions are distinct outcomes.
* `size_t` is `nat`; wrap-around is written explicitly (`size_wrap`) at the places where
  the code can reach it.
* Not modelled: template metaprogramming/SFINAE selection except as stated, logging, memory layout,
  Armadillo internals (decompositions are oracles), OpenMP runtime (threads are
  interleavings of their atomic steps), compiler behaviour.

## Plan and result per property

| id | property | modelled | how it is proved | status |
|----|----------|----------|------------------|--------|
| C01 | SGD visits each separable function exactly once per epoch | SGD::Optimize with its event trace | invariant over loop iterations relating trace, counters and epoch | proved |
| C02 | SGD respects maxIterations exactly | same | same invariant; counting visited functions | proved |
| C03 | The value SGD returns | same | same invariant; exact pass by induction; refutations by computation | proved |
| C04 | Callback protocol of SGD | same | trace grammar as an inductive specification | proved |
| C05 | A callback that asks to stop does stop SGD | same | invariant: terminate flag is the disjunction of all answers | proved |
| C06 | Callback dispatch | Callback::* dispatch over a list of callbacks | induction over the pack | proved |
| C07 | EarlyStopAtMinLoss stops exactly after `patience` epochs without improvement | EarlyStopAtMinLoss as a state machine | refinement to a statement over the whole history | proved |
| C08 | StoreBestCoordinates keeps the argmin | StoreBestCoordinates as a state machine | refinement to a first-argmin specification | proved |
| C09 | Gradient clipping bounds the gradient | GradClipByNorm, GradClipByValue, GradientClipping | real algebra | proved |
| C10 | Synthesised function methods agree with each other | the AddX mixins completing a record of optional methods | case analysis over all combinations | proved |
| C11 | GradientDescent iteration count and returned value | GradientDescent::Optimize | loop invariant over the trace | proved |
| C12 | Coordinate descent touches only the chosen coordinate and returns the final objective | CD::Optimize and the three descent policies | loop invariant; induction over features | proved |
| C13 | GridSearch returns the best point of the whole grid | the recursion of GridSearch | induction over dimensions against the cartesian product | proved |
| C14 | SPSA restores the iterate around its two evaluations and bounds evaluations | SPSA::Optimize | loop invariant; algebra over R | proved |
| C15 | Simulated annealing: returned energy is the energy of the returned state | SA::Optimize, GenerateMove, MoveControl | simulation by an inductive Metropolis relation | proved |
| C16 | Differential evolution never loses its best member | DE::Optimize | population invariant | proved |
| C17 | CNE preserves the elite and stays inside its population | CNE::Optimize, Reproduce, Crossover, Mutate | generation relation | proved |
| C18 | PSO personal and global bests | PSO::Optimize, LBestUpdate, DefaultInit | invariant over personal bests | proved |
| C19 | CMA-ES tracks the best transformed mean | CMAES/ActiveCMAES::Optimize; sampling and adaptation are parameters | inductive generation relation | proved |
| C20 | Box constraints of BoundaryBoxConstraint hold for every point | BoundaryBoxConstraint::Transform per coordinate | real case analysis | proved |
| C21 | POP-CMA-ES restarts and returns the best of all runs | POP_CMAES::Optimize over a run oracle | loop invariant | proved |
| C22 | L-BFGS keeps the last numBasis correction pairs | L_BFGS::UpdateBasisSet and the ring buffer | refinement to a queue | proved |
| C23 | L-BFGS two-loop recursion computes the BFGS inverse-Hessian product | L_BFGS::SearchDirection, ChooseScalingFactor | algebra over R against the BFGS recursion | proved |
| C24 | L-BFGS line search acceptance and budget | L_BFGS::LineSearch | loop invariant | proved |
| C25 | L-BFGS optimize: termination and return value | L_BFGS::Optimize | simulation | proved |
| C26 | Augmented Lagrangian value, gradient and multiplier updates | AugLagrangianFunction and AugLagrangian::Optimize | derivatives over R; loop invariant | proved |
| C27 | Frank-Wolfe iterates stay in the constraint set | FrankWolfe::Optimize, classic and line-search update | convexity | proved |
| C28 | ConstrLpBall solves its linear minimisation problem | ConstrLpBallSolver, ConstrStructGroupSolver | Hoelder's inequality proved from Young's | proved |
| C29 | Proximal projections | ProjectToL1Ball, ProjectToL0Ball | sorted prefix argument | proved |
| C30 | Momentum-style updates unroll to their textbook form | vanilla, momentum, Nesterov, quasi-hyperbolic updates | induction over gradient sequences | proved |
| C31 | Adam-family moment estimates | Adam and relatives | induction over gradient sequences | proved |
| C32 | AdaGrad/RMSProp/AdaDelta/AdaSqrt/SMORMS3/WNGrad step-size invariants | AdaGrad, RMSProp, AdaDelta, AdaSqrt, SMORMS3, WNGrad | induction over gradient sequences | proved |
| C33 | AdaBound/AMSBound clip the per-coordinate learning rate | AdaBound, AMSBound and their accessors | algebra; limits over R | proved |
| C34 | SGDR step-size schedule | CyclicalDecay | induction over updates | proved |
| C35 | Snapshot ensembles average the right points | SnapshotEnsembles, SnapshotSGDR | induction over updates | proved |
| C36 | Parallel SGD loses no update and assigns each function to at most one thread | ParallelSGD::Optimize; threads are interleavings | permutation and sum invariants over every schedule | proved |
| C37 | Parallel SGD step-size policies | ConstantStep, ExponentialBackoff | induction over epochs | proved |
| C38 | Pareto dominance is a strict partial order | Dominates of NSGA2 and AGEMOEA | induction over the objectives | proved |
| C39 | Fast non-dominated sorting builds the Pareto fronts | FastNonDominatedSort | loop invariants of the peeling algorithm | proved |
| C40 | What NSGA2 reports | NSGA2::Optimize | generation invariant | proved |
| C41 | MOEA/D keeps its invariants | MOEAD::Optimize and its decomposition policies | generation invariant | proved |
| C42 | Das-Dennis reference directions | Uniform weight initialisation, binomials | bijection with compositions | proved |
| C43 | Quality indicators | Epsilon, IGD, IGD+ | real sums, minima | proved |
| C44 | Any container type safety and ownership | Any over an explicit heap | invariant over operation sequences | proved |
| C45 | Symmetric vectorisation for SDPs | Svec, Smat, SvecIndex, SymKronId | double sums over R | proved |
| C46 | LRSDP objective and gradient correspond to R R^T | LRSDPFunction and its AugLagrangianFunction specialisation | double sums over R; history invariant | proved |
| C47 | PrimalDualSolver: validation, search directions, interior iterates and callbacks | PrimalDualSolver::Optimize over matrix oracles | linear algebra over R; loop invariant | proved |
| C48 | Test problems: Gradient is the gradient of Evaluate | the single-objective test problems | derivatives with derivable_pt_lim | proved |
| C49 | Test problems: separable parts add up | their batch overloads | sums over permuted index lists | proved |
| C50 | Test problems: declared optimum is a global minimum | their declared optima | algebraic and analytic inequalities | proved |
| C51 | Lookahead semantics | Lookahead::Optimize over any base optimizer | loop invariant | proved |
| C52 | SWATS switches from Adam to SGD at most once and only when its criterion holds | SWATSUpdate | induction over histories | proved |
| C53 | SVRG inner updates are unbiased and index-safe | SVRG::Optimize, Barzilai-Borwein decay | loop invariants; sums over splits | proved |
| C54 | SARAH and Katyusha batch safety and update rule | SARAH, SARAH+, Katyusha | loop invariants; sums over splits | proved |
| C55 | Big-batch SGD batch growth is index-safe | BigBatchSGD, AdaptiveStepsize, BacktrackingLineSearch | loop invariants | proved |
| C56 | SPALeRA SGD preserves the iterate's shape and its Page-Hinkley test | SPALeRASGD and SPALeRAStepsize | loop invariants; Page-Hinkley sums | proved |
| C57 | IQN aggregates equal the sums over all functions | IQN::Optimize | aggregate invariant over R | proved |
| C58 | Eve objective-driven decay stays within its clip range | Eve::Optimize | loop invariant; clipping | proved |
| C59 | Optimisers that are reused start afresh | the members an Optimize() call leaves behind, per optimizer | history quantification; refutation by computation | proved |
| C60 | maxIterations = 0 means no limit | every loop with a maxIterations guard | simulation of bounded by unbounded runs | proved |
| C61 | Every optimiser reports EndOptimization exactly once | the event traces of all optimizers | trace invariant per loop | proved |
| C62 | FTML and Demon updates | FTMLUpdate, DemonSGDUpdate, DemonAdamUpdate | algebra over R | proved |
| C63 | The iterate of SGD moves only by the update policy | SGD::Optimize | loop invariant over the log of states | proved |
| C64 | AGE-MOEA keeps n individuals within the bounds, matches front to set, and is elitist | AGEMOEA::Optimize with every helper; pow, log, solve, draws and sort are arguments | invariant over the generations; the fronts are ranks, the sort is by rank first, hence elitism; counterexample runs computed over the rationals | proved |
| C65 | CMA-ES samples from a valid covariance matrix, adapted by the published rule (with the inverse where its square root belongs) | weights, learning rates, sampling, path, covariance and step-size updates and the repair of CMAES and ActiveCMAES; log, exp, chol and eig_sym are arguments | spectral decomposition over the reals: the update is a convex combination of positive semidefinite matrices; induction over the generations; explicit counterexamples for the path and for the repair | proved |
| C66 | Frank-Wolfe updates that keep atoms are least squares over the atoms kept | FuncSq, Atoms, UpdateSpan, UpdateFullCorrection; solve, index_min and sort are arguments | least squares as a quadratic; loop invariants over pruning and gradient passes; explicit counterexamples | proved |
| C67 | What the reporting callbacks show, and when TimerStop stops | PrintLoss, TimerStop, ProgressBar, Report with TruncatePrint, QueryFront; clock readings are part of the events | induction over the events, with the specification as a function of the event list; counterexamples by computation | proved |
| C68 | The Pareto-optimal points of the multi-objective test problems | ZDT1-4,6, DTLZ1-7, MAF1-6, Schaffer N.1, Fonseca-Fleming over the reals: Evaluate, the objectives of GetObjectives, GetReferenceFront | three shapes: shares that add up to one times a distance factor, their complements, and a curve that rises with the distance term; the fronts through the weight-lattice theorem of C42 | proved |
| C69 | Gradient descent: descent, stationarity and convergence rates | the gradient-descent model of C11 over the reals | descent lemma by the mean value theorem along a segment (Proof/SmoothProof.v); each run is the iteration x -> x - step grad x, then induction on the number of steps; the count by telescoping the tests that failed | proved |
| C70 | Frank-Wolfe with the classic rule converges at rate 1/k | the Frank-Wolfe model of C27 with UpdateClassic over the reals | one-step recurrence from the descent lemma, the tangent inequality and the solver; induction with (k+3) h_k <= M | proved |
| C71 | Regret of SGD and AdaGrad on convex functions | the SGD model with the vector form of VanillaUpdate / AdaGradUpdate and NoDecay | induction on the "moved" history of C63 with a potential that pays for the linear regret of each step | proved |
| C72 | DE, CNE, PSO, CMA-ES and grid search use the objective only through comparisons | the models of C16 (DE), C17 (CNE), C18 (PSO), C19 (CMA-ES) and C13 (grid search), for every Num | relational: the two runs are kept in states that differ only in the recorded objective values, related by [corr]; every branch is a comparison of related values | proved |
| C73 | The adaptive methods take bounded steps, whatever the gradients | the update policies of C30-C32 and the SGD loop of C01, over the reals | an exponential average m of the gradients satisfies m^2 <= (1-b^t) v, v the same average of their squares, and averages with different rates are comparable; the SGD run by the policy history of C63 | proved |
| C74 | Softmax regression: objective, gradients, convexity, and what its batch and shuffle methods do | the whole class, over the reals, matrices as functions with their sizes (Model/Softmax.v); exceptions of Armadillo as None | chain rule entry by entry; convexity of log-sum-exp from 1 + u <= exp u | proved |
| C75 | Which individuals survive a generation of NSGA-II | the generation of Model/NSGA2.v over the reals; std::sort is any function that permutes and orders | the front in the order of one objective gives neighbours and extremes; then counting: children all have rank 0 and distance 0, non-dominated parents rank 0 and a positive distance | proved |
| C76 | What the Lovasz theta problem and the problems without a gradient compute | Model/Lovasz.v over the reals, matrices as functions with their sizes | the derivative of an entry of the Gram matrix in one entry of the factor gives all the others; bounds on sine and cosine for the two-dimensional problems | proved |
| C77 | Where the origin is, which way the axes point and how the objective is scaled | the SGD loop of Model/Sgd.v and the policies of Model/Updates.v over the reals | each policy by a relation between the two states kept at every step; the loop by simulation, each coordinate carrying its history | proved |
| C78 | SPSA's two-evaluation direction is the gradient on average, and SPSA converges on average on quadratics | the SPSA loop of Model/SPSA.v over the reals, the coins as explicit lists of outcomes | the first and second moments of a sign vector by induction on the dimension; one step by the exact expansion of a quadratic; runs by induction on the rounds | proved |
| C79 | Coordinate descent descends and converges at a linear rate | the coordinate-descent loop and policies of Model/CD.v over the reals | one step by column smoothness; random features by averaging over the explicit list of all feature sequences; a sweep by bounding how far the gradient moves during it; runs by induction | proved |
| C80 | Rotating the coordinate system, and reordering the coordinates | the loops of Model/GradientDescent.v, LBFGS.v and Sgd.v with the policies of Updates.v | a simulation between the run and the run on the image; for L-BFGS the stored pairs are images in every slot already written; for rotations linearity and preserved inner products; a computed step for Adam | proved |
| C81 | An objective that is not finite ends the run | the runs of gradient descent, coordinate descent, parallel SGD, Lookahead, SGD, Eve, big-batch SGD, SPALeRA, SVRG, SARAH, Katyusha, IQN, SPSA and L-BFGS, event by event, over any arithmetic | loop invariants on the history: as long as the loop goes on, either no bad event has been seen or the running sum is not finite; the arithmetic law is proved for IEEE doubles by cases | proved |
| C82 | Momentum methods make progress on convex functions, Adam need not | SGD::Optimize with MomentumUpdate, NesterovMomentumUpdate, QHUpdate, AdamUpdate and AMSGradUpdate over the reals, any separable function with convex batches. | A potential (squared distance of the shadow point x + q v to y, plus a multiple of |v|^2) pays for every step; the trace theorem of C63 sums the steps. For Adam and AMSGrad the trace theorems C01/C02 give the cyclic gradient sequence, and an induction over the passes bounds the second moments and so the steps. | proved |
| C83 | SVRG and SARAH converge linearly on strongly convex sums, whatever the order of the batches | SVRG with NoDecay and SARAH/SARAH+ as in C53 and C54, on sums over the reals (Spec/VrRateSpec.v: an order per shuffle, batch gradients are sums over the order) | from the reports of C53 and C54: in a round with snapshot w the point after k moves is within ((1 + eta L)^k - 1 - k eta L) |w - y| of w - k eta grad F(w), which gradient descent contracts; Cauchy-Schwarz and triangle inequality in Proof/NormProof.v | proved |
| C84 | Settings that turn one optimizer into another | SGD (Model/Sgd.v) with the update policies of Model/SgdPolicies.v and Updates.v, gradient descent, SVRG | a simulation between two configurations of SGD that differ in the update policy; induction on the rounds for one batch of everything; the first step on a function with gradient 1 for the documented equivalences that are false | proved |
| C85 | What an exception leaves in the caller's matrix | For SGD, gradient descent, coordinate descent, L-BFGS, SPSA, simulated annealing, differential evolution and CNE: the sequence of calls of the function and the callbacks and of writes to the iterate (Model/Throw.v, Model/ThrowCNE.v). | An invariant over the sequence, by induction over the loops, for every prefix that ends in a call; the sequence is tied to the earlier models by proving that it yields their trace and final iterate. SPSA and simulated annealing: the first perturbed evaluation is at a point that is neither the start nor a step. | proved |
| C86 | SGD with a constant step size comes as close to the minimiser as the step size allows, whatever the order | The loop of Model/Sgd.v with the plain update and no decay over the reals; a sum is given by the gradients of its functions, and each shuffle by a permutation (Spec/SgdRateSpec.v). | Proof/SgdRate.v bounds one pass: the steps stay within 2hT of its start, T the lengths of the gradients there, so the pass is a gradient step on the average up to an error of order h^2. Proof/SgdFloor.v carries the bound through every round of the loop, wherever it is left. SgdFloorEx.v: the invariant of the two functions that pull apart. | proved |
| C87 | Parallel SGD on functions that share no element gives the same result for every schedule and number of threads | The interleaved parallel region and the loop of Model/ParallelSgd.v; functions with separate elements, possibly stale reads and the run of one thread (Spec/ParSerialSpec.v). | Proof/ParSerial.v strengthens the invariant of C36: every gradient in the log is the gradient at the start, because the elements a function reads are written only on its own behalf and it is computed once. Subtractions at different positions commute over any number type; induction over the epochs. ParSerialEx.v computes the examples and counterexamples. | proved |
| C88 | Parallel SGD comes as close to the minimiser as SGD on one thread, whatever the schedule and the age of the values read | The interleaved parallel region and the loop of Model/ParallelSgd.v over the reals with a constant step size; stale, element-wise reads (Spec/ParSerialSpec.v seen); vocabulary of C86 (Spec/SgdRateSpec.v). | Proof/ParFloor.v: if every gradient is taken within h times the lengths of the gradients computed before it, the epoch ends where a serial pass may end, in the sense of the invariant of C86. ParFloorRun.v: the log of every schedule has that property, because each element moved by at most the amounts subtracted from it (componentwise domination and the permutation invariant of C36); then induction over the epochs. ParFloorEx.v: the counterexample, by induction over the epochs, and a run that meets the hypotheses. | proved |
| C89 | How far parallel SGD can get with a decay policy | The interleaved parallel region and the loop of Model/ParallelSgd.v with arbitrary step sizes, and ExponentialBackoff as in Model/ReuseSwarm.v; boxes and sums of step sizes in Spec/BackoffSpec.v. | Proof/Backoff.v: invariant over the steps of the threads (every gradient so far is bounded, so every value that can be read is in the box). Proof/BackoffRun.v: induction over the epochs; exact sum of the backed-off step sizes. Proof/BackoffEx.v: product inequality for the closed forms. | proved |
| C90 | Parallel SGD converges when the step sizes tend to zero slowly enough | As C88, with step sizes that change from epoch to epoch; the recursive bound, vanishing and unbounded sums in Spec/DecaySpec.v. | Proof/Decay.v: induction over the epochs with the contraction of one epoch (Proof/ParFloorRun.v, Proof/SgdRate.v); the bound tends to zero by (1 - c h)(1 + c (t + h)) <= 1 + c t; harmonic series by blocks of doubling length. | proved |
| C91 | Simulated annealing with ExponentialSchedule: temperature and bounded rise of the energy | SA::Optimize (Model/SA.v) with ExponentialSchedule (Model/SACooling.v) over the reals. | Proof/SACooling.v: the energy plus ln(1/xi) T / lambda does not increase along the cooling loop; induction over the loop with the recorded steps as invariant. | proved |
| C92 | WNGrad converges for every step size | WNGradUpdate (Model/Updates.v) in SGD::Optimize (Model/Sgd.v), over the reals. | Proof/WnConverge.v: two-phase invariant over the steps. Until B()/stepSize reaches L the rise of the objective is paid by the growth of B(); from then on B() plus a multiple of the objective does not grow. | proved |
| C93 | Big-batch SGD with the backtracking line search converges for every initial step size | BigBatchSGD::Optimize with BacktrackingLineSearch (Model/BigBatch.v), over the reals. | Proof/BigBatchRate.v: the first step size that passes the test is at least half of one that fails it, a step size up to 2(1-c)/L passes by the descent lemma; the decreases of the objective are summed along the run that C55 reports. | proved |
| C94 | Frank-Wolfe with the line search is a descent method with rate 1/k on convex quadratic functions | LineSearch, UpdateLineSearch and FrankWolfe::Optimize (Model/FrankWolfe.v), over the reals. | Proof/FWLineSearch.v: on a quadratic the slope is affine, so the first secant step finds its zero, which by the tangent inequality is the minimum on the segment; it is at least as good as the classic step, so the recurrence of C70 applies. | proved |
| C95 | What AugLagrangian::Optimize() returns is nearly feasible and nearly optimal | AugLagrangian::Optimize (Model/AugLag.v) over the reals with any inner optimizer of a stated accuracy. | Proof/AugOpt.v: at a feasible y the augmented Lagrangian is f(y), and l c <= l^2/(4t) + t c^2 summed over the constraints turns the minimality of the last inner run into the three bounds; Proof/AugConvex.v and AugRate.v: on a convex problem a multiplier step brings the multipliers closer to optimal ones (proximal point argument), which turns the bounds into ones without Lambda(); the refutation is an invariant of the outer iterations on one problem (3 + multiplier = 3 / 11^k, penalty 10). | proved |
| C96 | AugLagrangian drives the constraint violation to zero at a geometric rate on convex problems | AugLagrangian::Optimize (Model/AugLag.v) over the reals with an exact inner optimizer. | Proof/AugRate.v: the first-order condition of two successive inner runs gives monotonicity of the violation in both branches; an invariant counts moves (violation below a threshold that shrinks by the factor) and increases (violation at most |l0 - m|^2 / sigma^2), and one of the two counts is at least k / 2; Cauchy-Schwarz gives the objective. | proved |

If the code does not satisfy a property, the faithful model refutes it: the theorem is
named `..._refuted`, and the finding is listed below.

## What is modelled

Paths are relative to `/repo/include/ensmallen_bits`.  Each definition of the model cites
the lines it stands for; this is the summary.

| model file | code |
|------------|------|
| Sgd | sgd/sgd_impl.hpp (Optimize, complete) |
| Updates | all element-wise policies in sgd/update_policies, adam, ada_belief, ada_bound, ada_delta, ada_grad, ada_sqrt, demon_sgd, demon_adam, ftml, padam, qhadam, rmsprop, smorms3, wn_grad, yogi |
| Swats, Eve | swats/swats_update.hpp, eve/eve_impl.hpp |
| Schedules | sgdr/cyclical_decay.hpp, sgdr/snapshot_ensembles.hpp, sgdr/snapshot_sgdr_impl.hpp, parallel_sgd/decay_policies |
| VarRed, SVRG, Sarah, Katyusha | svrg, sarah, katyusha (`*_impl.hpp` and policies) |
| BigBatch, Spalera, IQN, Lookahead | bigbatch_sgd, spalera_sgd, iqn, lookahead |
| GradientDescent, CD, SPSA | gradient_descent, cd with its descent policies, spsa |
| SA, SACooling, DE, CNE, PSO | sa (with sa/exponential_schedule.hpp), de, cne, pso (`*_impl.hpp` and policies) |
| CMAES, PopCMAES, BoxConstraint | cmaes: control flow of Optimize (C19, with any sampling and adaptation) and the sampling, weights and covariance adaptation of CMAES and ActiveCMAES (C65); chol, eig_sym, log, exp, randn are arguments; transformation policies |
| LBFGS | lbfgs/lbfgs_impl.hpp (complete) |
| AugLag, LRSDP | aug_lagrangian, sdp/lrsdp_function_impl.hpp |
| Svec, PrimalDual | sdp/lin_alg.hpp, sdp/primal_dual_impl.hpp (matrix factorisations are parameters) |
| FrankWolfe, LpBall, Proximal | fw/frank_wolfe_impl.hpp, update_classic, update_linesearch, line_search, constr_lpball, constr_structure_group, proximal |
| Atoms | fw/func_sq.hpp, atoms.hpp, update_span.hpp, update_full_correction.hpp |
| ParallelSgd | parallel_sgd/parallel_sgd_impl.hpp |
| Pareto, NSGA2, AGEMOEA, MOEAD, DasDennis | nsga2, agemoea, moead with decomposition and weight-initialisation policies |
| Indicators | utility/indicators |
| Any | utility/any.hpp |
| Callbacks, FunctionMixin, GridSearch | callbacks/callbacks.hpp and the stateful callbacks, function/*.hpp, grid_search |
| Reporting | callbacks/print_loss.hpp, timer_stop.hpp, progress_bar.hpp, report.hpp, query_front.hpp |
| Problems, ProblemsN, ProblemsFinal | problems/*.hpp except those of the next lines |
| Lovasz | LovaszThetaSDP in aug_lagrangian_test_functions.hpp; cross_in_tray, holder_table, schaffer_function_n4 |
| MultiProblems | problems/zdt, problems/dtlz, problems/maf, schaffer_function_n1.hpp, fonseca_fleming_function.hpp |
| Softmax | problems/softmax_regression_function_impl.hpp |
| SgdPolicies | VanillaUpdate, MomentumUpdate, NesterovMomentumUpdate, QHUpdate, AdaGradUpdate and the Adam family on vectors, NoDecay |
| Throw, ThrowCNE | the calls and the writes to the iterate, in order, of SGD, GradientDescent, CD, L-BFGS, SPSA, SA, DE and CNE |
| DemonSchedule | the constructors of demon_sgd/demon_sgd.hpp and demon_adam/demon_adam.hpp |
| Reuse, ReuseSwarm | the members each optimizer keeps between two calls of Optimize(); the static variable of LBestUpdate |

## What is not modelled

* Not at all: `config.hpp`, `log.hpp`, `ens_version.hpp`, the traits and SFINAE headers (`static_checks.hpp`,
  `sfinae_utility.hpp`, `arma_traits.hpp`), and the text and the formatting of what the callbacks print.
* Armadillo: element-wise expressions are written out; `chol`, `inv`, `eig_sym`, `syl`, `solve`, `sort_index`, `norm`, `shuffle`
  and the random generators are parameters of the model; theorems that need one to be right state the
  contract as a hypothesis.  `accu` and `dot` are left-to-right sums (Armadillo does not specify the
  order).
* Rounding: theorems over `RNum` are about exact real arithmetic; the properties say so.  Theorems
  over an arbitrary `Num` hold for doubles as well.
* Memory: aliasing, move semantics and lifetime only for `Any` (C44) and for the members that
  survive a call (C59).  Data races of ParallelSGD other than through its atomic operations are not
  represented: a step of a thread is a gradient evaluation, an atomic subtraction or a flag access.
* Functions and callbacks are functions of the history of events (so deterministic stateful user code is
  covered); an exception from user code is represented only by the
  order of calls and writes in Model/Throw.v and Model/ThrowCNE.v (eight optimizers).

### State kept between calls (C59)

GradientDescent, CD, SPSA, DE, CNE, FrankWolfe, PrimalDual, Eve and GridSearch change no member in Optimize(), so
a second call on the same object is the same function of its arguments.  PSO (the bounds that DefaultInit widens in
place, the `static double phi` of LBestUpdate) and ParallelSGD (the state of ExponentialBackoff) are in
Model/ReuseSwarm.v.  The following are read off the code and not part of a theorem: CMAES never resets
functionEvaluations (C21 uses this) and replaces lambda = 0 for good; NSGA2 and MOEAD keep the broadcast bounds.

## Findings

Claims one would expect to hold but that the code does not satisfy.  Each is refuted in the model by the theorem
named (a computed counterexample or a proof for all inputs).

| theorem | what goes wrong |
|---------|-----------------|
| C03_sgd_last_pass_refuted | The last alternative happens: a callback such as EarlyStopAtMinLoss that stops at the end of an epoch makes SGD return 0 although every pass had a positive objective. The claim "the value of the last pass" is false. |
| C03_sgd_exact_always_refuted | exactObjective is not honoured when the run is ended by the tolerance. |
| C06_every_callback_invoked_refuted | "Every callback is invoked for every event" is false: the third one is skipped. |
| C10_supplied_methods_kept_mixed_refuted | Without uniformity this fails: a const Evaluate next to a non-const EvaluateWithGradient is not the method that optimizers call. |
| C11_returned_value_is_final_refuted | The returned value is not always the objective of the returned point. |
| C12_greedy_steepest_refuted | In particular it does not pick the steepest feature when partial derivatives are negative. |
| C15_move_size_le_maximum_refuted | The move size is the configured initial size or at most the maximum; so an initial size above the maximum is used as it is. |
| C16_keeps_the_shape_refuted | A best element exists only if some initial objective is below DBL_MAX: otherwise the iterate ends up empty (or, with at least one generation, the sizes clash).  |
| C16_random_members_distinct_refuted | The two random members need not differ: the loop condition of line 111 only rejects m = member = l, which never happens. Here l = m = 1 for member 0. |
| C17_empty_elite_rejected_refuted | A selection percentage that selects nobody is accepted when the population size is odd: numElite-- wraps around. |
| C17_not_worse_than_start_refuted | The starting point is not a member of the population, so the result can be worse than it. |
| C17_no_generation_refuted | Without a generation (maxGenerations = 0, or a stop request at the first evaluation) the index vector is empty when its first element is read. |
| C18_lbest_uses_both_neighbours_refuted | ... but its local best is not the best of a particle and its two neighbours, as documented: the left neighbour is never used. |
| C18_scalar_bounds_refuted | Scalar bounds: the lower bound is negated, so [-5, 10] becomes [5, 10] and the particles never start in the lower part; [5, 10] becomes [-5, 10]. |
| C18_value_matches_point_refuted | A stop requested while the initial swarm is evaluated makes Optimize() return DBL_MAX, which is not the objective of the point it returns; and so does maxIterations = horizonSize = 0. |
| C18_zero_horizon_refuted | horizonSize = 0 with maxIterations > 0 takes the front of an empty queue. |
| C19_random_selection_not_worse_refuted | With RandomSelection the value compared with the full objective of the start is a sum over some of the functions only: here one of two is chosen, the "best" point is worse than the start, and the value returned is not its objective. |
| C19_single_member_refuted | A population of one has no parents: w(0) does not exist. |
| C19_matrix_iterates_refuted | Row and column vectors can be optimized; a matrix iterate with several rows and columns makes the first generation throw (the step has the wrong shape).  |
| C19_zero_batch_refuted | batchSize = 0 makes the evaluation loop endless. |
| C20_defined_everywhere_refuted | Far outside the number of periods does not fit an int, which is undefined behaviour; so "defined for every point" is false. |
| C20_mixed_bounds_refuted | A scalar lower bound with a vector upper bound: only the first upper bound is used, so the others can be violated. |
| C21_best_of_all_evaluations_refuted | The point returned need not be the best one evaluated in all runs: here the restart evaluates the point 1 (value 1), but as the restart's own result (the best mean) is no improvement the value 9 of the first run is returned. |
| C21_value_is_the_objective_refuted | With more than one batch the callbacks see partial sums, and the value returned is one of these rather than the objective of the point returned. |
| C21_stop_request_ends_optimization_refuted | A stop request ends the current run but not the restarts. |
| C21_budget_counts_evaluations_refuted | The budget counts evaluations of earlier runs again and again: 30 evaluations in three runs count as 50. |
| C22_zero_basis_refuted | With numBasis = 0 the first update computes a remainder by zero. |
| C23_always_descent_refuted | Without the curvature condition the direction may point uphill. |
| C24_value_is_at_iterate_refuted | The reported value and gradient need not belong to the reported iterate: the first trial (value 5 at 1) is the best, the second one (value 6 at 2.1) is accepted. |
| C24_not_above_start_refuted | When the trials run out the iterate may move to a higher objective. |
| C25_fresh_call_refuted | The member [terminate] is never reset: a second call after a stopped one returns the starting point at once, although a fresh optimizer would move. |
| C25_value_at_iterate_refuted | The returned value need not be the objective at the returned point, and it may be above the objective at the start. |
| C25_not_worse_than_start_refuted | The returned value need not be the objective at the returned point, and it may be above the objective at the start.  |
| C26_true_means_feasible_refuted | The documented convergence test does not look at the constraints. A request to stop made to the inner optimizer is not a request to stop: the inner optimizer stays stopped, the coordinates never move and the method reports success at a point that violates the constraint. |
| C26_constraint_callback_refuted | Callbacks are shown the square of a constraint while the penalty is computed and the constraint itself while the multipliers are updated. |
| C26_iterations_refuted | maxIterations = 1 allows no iteration at all, and a call that was asked to stop leaves an optimizer that does nothing. |
| C27_value_at_iterate_refuted | ended by the limit, the value belongs to the iterate before; maxIterations = 1 makes no evaluation and returns the largest double |
| C27_line_search_nan_refuted | in binary64 the secant line search of a convex function can leave NaN: on the segment from 0 to 1 with slopes -1e20 at 0 and 1 at 1 |
| C28_fraction_refuted | For p = 3/2 (arma::normalise gets 1) a point of the ball is better than the result. |
| C28_negative_refuted | With a negative weight the result need not minimise. |
| C29_l1_refuted | It is not the nearest point of the ball: theta is divided by rho, not by rho + 1. |
| C33_gamma_accessor_refuted | The accessor Gamma() does not reach the convergence speed: writing through it leaves gamma alone and overwrites the final learning rate. |
| C34_restart_refuted | With multFactor = 2 a restart does not bring the step back: after updates 7, 8 and 9 (period 5, then 10; one batch per epoch) it is still 0. |
| C34_decreasing_within_phase_refuted | Inside one phase the step rises again: the period of the cosine is the number of batches per epoch, not the length of the phase. |
| C35_at_most_requested_refuted | With multFactor = 1 every restart stores a snapshot: one was requested, three are held. |
| C35_too_many_requested_refuted | Requesting more snapshots than there are restarts wraps the exponent of multFactor around in size_t. |
| C36_stop_refuted | With two threads it can be: another thread writes back the value it had read before. |
| C36_value_refuted | The value returned is not that of the final iterate when the limit is reached. |
| C38_nan_refuted | With NaNs transitivity fails: each of three vectors dominates the next, cyclically. |
| C39_nan_refuted | With NaN objectives members can be lost: here all four, and there is no first front. |
| C40_match_refuted | ParetoFront() need not hold the objectives of ParetoSet(), the final iterate can be dominated by a point the run has evaluated, and the returned value can be below everything the objectives can return. |
| C40_no_generation_refuted | Without a generation, or without a population, the code reads fronts[0] of an empty vector. |
| C40_no_population_refuted | Without a generation, or without a population, the code reads fronts[0] of an empty vector.  |
| C40_nan_refuted | NaN objectives can lead to the same read. |
| C40_crossover_refuted | Crossover: whatever the draw, the second child is a copy of the first parent (where a * 0 + a * 1 = a holds, as it does for finite numbers). |
| C41_pbi_refuted | Penalty boundary intersection with its default penalty can prefer a dominated vector. |
| C41_pareto_refuted | ParetoSet() can hold dominated members, and the returned value need not be the least sum of objectives in it (the loop visits as many members as there are objectives). |
| C41_objectives_refuted | With more objectives than individuals that loop reads past the end of the population. |
| C41_columns_refuted | Of an iterate with several columns only the first is crossed over and mutated: everything after the first [rows] elements of a child is clamped memory, independent of the parents. |
| C41_mating_refuted | A parent drawn "from the neighbourhood" need not be a neighbour. |
| C42_one_objective_refuted | With a single objective the only weight is not a number. |
| C43_epsilon_zero_refuted | With a zero in the reference front, Epsilon reports perfect coverage of points that no factor covers: here 5 against 0. |
| C43_empty_refuted | Against an empty reference front IGD+ is not a number. |
| C43_igd_better_refuted | IGD does not have that property, even when no point is better than a reference point: (1, 5) dominates (1, 10), but lies further from the reference point (0, 10). |
| C44_copy_refuted | But a copy of an optimiser shares the policies of the original: destroying both after one Optimize() deletes them twice. |
| C44_overwrite_refuted | Set() on a full holder loses the old object: it is never deleted. |
| C44_null_refuted | A holder of a null pointer passes the type check. |
| C45_length_refuted | A vector whose length is no n(n+1)/2 makes Smat() read past its end. |
| C46_unsymmetric_gradient_refuted | For unsymmetric matrices the gradient is wrong. |
| C46_returned_value_refuted | It need not be the value at the coordinates returned: L-BFGS with two line search trials leaves 1.1 and evaluates 0.6 last, so that 0.36 is returned in place of 1.21. |
| C47_tau_one_refuted | tau = 1 is not safe. |
| C47_value_refuted | The value returned is not <C, X> when no step was taken: maxIterations = 1 allows none. |
| C47_end_refuted | Convergence leaves without EndOptimization. |
| C48_matyas_refuted | MatyasFunction: wrong wherever the second coordinate is not 0 (the second summand of the first entry has the wrong coefficient). |
| C48_fw_test_refuted | TestFuncFW: half the gradient, so wrong wherever the gradient is not 0. |
| C48_rastrigin_refuted | RastriginFunction: 10 n times the gradient. |
| C48_eggholder_refuted | EggholderFunction: wrong, for instance at (0, a - 47) for all a > 0 but those with cos(sqrt a) = 0, and 47. |
| C48_gockenbach_refuted | GockenbachFunction, the inequality constraint: where it holds strictly, its value is the constant 0 nearby, but the gradient returned is not 0. |
| C49_generalized_rosenbrock_refuted | Gradients of larger batches do not: a batch that holds two neighbouring functions overwrites the entry they share. |
| C49_rastrigin_refuted | Rastrigin: every batch adds the constant 10 n, so k batches give (k - 1) 10 n too much; the gradients add up. |
| C50_plane_refuted | McCormick and Eggholder have lower values outside their usual domains; Evaluate accepts any point. |
| C50_drop_wave_refuted | Drop wave: GetFinalObjective() is 0, but the value at GetFinalPoint() is -1, the minimum. |
| C50_schwefel_refuted | Schwefel: GetFinalObjective() is 0, but the value at the origin is -418.9829 n. The sum is added where it should be subtracted, so that GetFinalPoint() has a higher value than the origin, and its mirror image a lower one. |
| C51_zero_refuted | ... but k = 0 sets no limit. |
| C51_inner_stop_refuted | A request to stop made inside an inner run (at Evaluate, Gradient, BeginEpoch or EndEpoch, as most of the shipped stopping callbacks do) does not stop Lookahead. |
| C51_value_refuted | Without exactObjective the value is not that of the final iterate. |
| C52_fresh_run_starts_with_adam_refuted | The phase and the rate belong to the SWATSUpdate object, not to the run: a second optimization with the same object never uses Adam again. |
| C53_zero_batch_refuted | ... unless the batch size is 0: then the number of batches divides by it. |
| C53_inner_limit_refuted | innerIterations is not a hard limit: the last batch may exceed it (innerIterations = 1 and batches of two: two functions are visited). |
| C53_value_refuted | Without exactObjective the value is that of the last snapshot, not of the final point. |
| C54_sarah_zero_batch_refuted | A batch size of 0 is not rejected: the first pass never ends. |
| C54_sarah_full_batch_refuted | ... so "the estimate is the gradient when the batches are full" is false: three functions 3x^2, all in one batch, step size 1, start 1. The average gradient at -5 is -30, the step there is to -11 and not to 25; and the move from 1 to -5 is not reported as a step. |
| C54_sarah_plus_told_refuted | SARAH+ does not report the step that ends the inner loop. |
| C54_katyusha_zero_batch_refuted | A batch size of 0 divides by zero. |
| C54_katyusha_mean_refuted | Otherwise it does not: the difference of a smaller batch is divided by the configured batch size. |
| C54_snapshot_weights_refuted | The weights of the snapshot do not add up to 1: with m batches the weights are 1, r, ..., r^(m-1) with r > 1, and normalised they add up to less than 1 ... |
| C54_leaves_minimum_refuted | ... so Katyusha leaves a minimum: one function (x - 1)^2, start 1. |
| C54_full_gradient_point_refuted | The full gradient of a round is not one of a single point: from the second round on the first batch is evaluated at the iterate (2/3), the rest at the snapshot (1/6). |
| C55_grown_gradient_refuted | It does pass it: with maxIterations = 3 and batches of 3 this run visits 4 functions. And "the gradient of a step is that of its batch" is false when the batch grew: the gradient of function 2 is counted twice, that of function 3 not at all, while the objective the line search tests and the call reports is that of functions 0 to 3. |
| C55_two_variance_refuted | The running mean of the first two gradients is the second one (the divisor starts at 1 and not at 2), so their variance is always computed as norm(b - a) * norm(0): with gradients 2 and -4 the mean is -1 and the sample variance 18, yet the batch of 2 does not grow. |
| C55_adaptive_moves_twice_refuted | AdaptiveStepsize moves the iterate itself before the optimiser does: this run reports the steps to 3/2 and 7/9, and the second starts at 1, where nothing was reported. |
| C56_negative_threshold_refuted | A policy with a negative threshold "backtracks" at the first call to a point that was never stored: the iterate becomes an empty matrix. (SPALeRASGD's threshold is lambda times the average objective at the start, so it is negative whenever that is.) |
| C56_first_epoch_refuted | "The objective of an epoch is the sum over its batches" is false of the first: the sum of the evaluations before the first step is not reset. With the functions 1 + x^2 and 1 + (x-1)^2, a step size of 0 and one epoch at 0 the call returns 6, while the sum is 3. |
| C56_negative_objective_refuted | "Optimize keeps the iterate's size" is false when the average objective at the start is negative: -2 + x^2 and -2 + (x-1)^2 from 0 with lambda = 1/100. |
| C57_uneven_batches_refuted | ... but not otherwise: g starts as the average over the functions and is then updated as an average over the batches. "IQN converges to a minimum" is false then: on x^2/2, x^2/2 and 3 (x-2)^2/2 with batches of 2 it stays where the gradient is not 0, at a point that depends on the random initial point. |
| C57_column_refuted | "IQN optimizes a column vector" is false: an iterate with more than one row never moves (the first step throws an exception, because u.t() is subtracted from a column). |
| C58_stopped_run_returns_pass_sum_refuted | A stop request made when a pass ends makes Eve return 0 rather than the objective of that pass: the sum is reset before the loop condition is tested (189-195, 105). |
| C59_demon_refuted | The update policy's own object is not reset, even with resetPolicy: the counter of DemonSGD, b of WNGrad and the phase of SWATS. The same call twice: |
| C59_wngrad_refuted | The update policy's own object is not reset, even with resetPolicy: the counter of DemonSGD, b of WNGrad and the phase of SWATS. The same call twice:  |
| C59_swats_refuted | The update policy's own object is not reset, even with resetPolicy: the counter of DemonSGD, b of WNGrad and the phase of SWATS. The same call twice:  |
| C59_sgdr_refuted | SGDR: the step size the decay ended with is the maximum of the next call, here 0: the second call does not move. SnapshotSGDR: the snapshots of the first call are averaged into the second, here for a constant function started at 8 and then at 0. |
| C59_snapshot_refuted | SGDR: the step size the decay ended with is the maximum of the next call, here 0: the second call does not move. SnapshotSGDR: the snapshots of the first call are averaged into the second, here for a constant function started at 8 and then at 0.  |
| C59_lbfgs_refuted | L-BFGS after a call that was asked to stop: no step, where a new object goes to 3. |
| C59_auglag_refuted | The augmented Lagrangian method after a stopped call, and (without multipliers given) after a call that converged: the stored multipliers are the start of the next call. |
| C59_sa_refuted | SA continues with the temperature of the first call. |
| C59_inner_iterations_refuted | innerIterations = 0: one step per round on three functions after a call with one function, three on a new object. |
| C59_bigbatch_refuted | BigBatchSGD keeps the grown batch size and the reduced step size. |
| C59_parallel_backoff_refuted | so it is not as new: the same call twice, on f(x) = x from 10 |
| C59_pso_bounds_refuted | PSO on one row: DefaultInit negates the lower bound in each call, so 2 becomes -2 and then 2 again. |
| C59_pso_static_refuted | A new PSO object depends on the objects used before it: phi is a static variable, so the sum of the factors of the first object used in the program (here 25/4) replaces its own (9/2). |
| C60_spsa_refuted | SPSA does nothing at all. |
| C60_sa_refuted | Simulated annealing makes its initial moves and returns: no step is taken and the temperature stays what it was. |
| C60_linesearch_refuted | The line search of Frank-Wolfe (UpdateLineSearch) stays where it is whenever the minimum lies strictly between the two points. |
| C60_demon_refuted | DemonSGD divides by its number of iterations, maxIterations * batchSize: whatever the momentum, the step sizes and the gradients, every entry is NaN after two steps (in floating point; a debug build aborts instead). |
| C61_first_refuted | "BeginOptimization comes first" is false of simulated annealing, CNE and L-BFGS in every call: the first event is the evaluation of the starting point. |
| C61_pop_cmaes_refuted | Restarted CMA-ES calls them for each of its runs and EndOptimization once more at the end: with n runs n times and n + 1 times; the last two calls are with the point of the last run. |
| C61_lookahead_refuted | The callbacks given to Lookahead over SGD see both calls again for every inner run. |
| C62_ftml_counter_initialised_refuted | But the counter is never initialised, and the result depends on it: the same single update gives different iterates for different initial memory. |
| C62_demon_range_always_refuted | After momentumIterations updates the coefficient leaves [0, initial] (the counter keeps running), so the bound does not hold for every update. |
| C62_demon_reaches_zero_refuted | The momentum of a run with the constructor's own schedule does not reach 0 at its last update. |
| C62_demon_is_momentum_refuted | The coefficient multiplies the iterate, not a momentum buffer: with a zero gradient DemonSGD still moves the iterate. |
| C64_iterate_refuted | A valid run reads past the end: `iterate = population[fronts[0][0]]` takes an index into parents and children after the population was cut to n. If every parent is dominated by a child, the index is at least n. |
| C64_front_refuted | A valid run whose ParetoFront() has a dominated slice, whose iterate is dominated by another individual of ParetoSet(), whose value is below every single objective that was ever computed, and whose GenerationalStepTaken() callback does not see the objectives of the population. |
| C64_no_generation_refuted | maxGenerations = 0 is not "no limit", nor does it return: there are no fronts to read. |
| C64_no_population_refuted | populationSize = 0 passes the check of the constructor arguments and reads missing elements. |
| C65_published_path_refuted | The published algorithm adds C^(-1/2) times the step to the step-size path. The code uses the reciprocals of the eigenvalues, not of their square roots, so it adds C^(-1) times the step: already in the second generation of a run the two differ. |
| C65_active_repair_refuted | ActiveCMAES does not keep the directions the repair has no reason to touch: in the first generation of a run with two variables and four members, the worst of which went far along the second axis, the updated matrix has a positive variance along the first axis and the repaired one has none. |
| C65_active_few_members_refuted | ActiveCMAES with fewer than four members: the weight is 1 / 0, and in double arithmetic no element of the mean is finite after the first generation. |
| C66_span_descends_refuted | Refuted: "an UpdateSpan step never makes the objective larger". The first one forgets the starting point: from (3, 2) with A the identity and b = (3, 3) the objective goes from 1/2 to 9/2, whatever solver is used. |
| C66_span_feasible_refuted | Refuted: "UpdateSpan stays in the constraint set". The direction 1 is in the unit ball; the new point is 10. |
| C66_prune_cheapest_refuted | Refuted: "PruneSupport always leaves out the atom that costs least". The costs are computed once, from the coefficients before the first pass: with the atoms (1,0,0), (1,1,0), (0,0,1) and b = (2, 1, 2) it leaves out the first, then the second, and ends with objective 5/2; leaving out the third instead gives 9/4. |
| C66_full_correction_improves_refuted | Refuted: "UpdateFullCorrection ends no worse than its line search". For one variable, A = 1, b = 10, tau = 2, the line search reaches the best point 2; every positive step size makes the projection return 0, and the update ends there. |
| C67_query_rate_refuted | Refuted: "every query rate works": with rate 0 the first generation divides by zero. |
| C67_report_safe_refuted | Refuted: "Report never reads outside its vectors". A step (or a whole run) without gradients followed by one with gradients: the table reads a norm that was never stored. |
| C67_reached_refuted | Refuted: "Reached maximum iterations" tells whether they were reached. Two epochs of ten functions, with maxIterations = 20: the report counts two iterations and answers no. |
| C67_percentage_refuted | Refuted: "iterationsPercentage = 0.1 shows a tenth of the iterations". Of 1000 iterations it shows 10. |
| C67_truncated_matrix_refuted | Refuted: the same for matrices. Of a 5 x 2 matrix with columns 0..4 and 5..9 the second column is shown as 4 5 6 ... 9; of a 3 x 2 matrix with size 2 nothing is shown, an index is out of range. |
| C67_bar_length_refuted | Refuted: "ProgressBar(70) shows a bar of 70 characters": it has 100. |
| C67_wide_bar_refuted | Refuted: "every width works": a bar wider than 100 is never finished. |
| C67_bar_loss_refuted | Refuted: "the loss shown is the mean of the losses so far": after the first step it is half of it. |
| C68_dtlz_seen_refuted | So an optimizer given DTLZ1..4 works on another problem: there is one optimal vector, (0, 0, 0), its points are those below, and no documented optimum is among them. |
| C68_dtlz7_half_refuted | The documented optimum of DTLZ7, distance variables 1/2, is never optimal. |
| C68_dtlz5_all_refuted | The documented optima of DTLZ5 are one objective vector and not all there is: some point has none of them as good as itself. |
| C68_maf2_refuted | MAF2 never reads its distance variables. |
| C68_maf4_refuted | MAF4 with a parameter that is no whole number: Evaluate uses it, the objectives its whole part. |
| C68_maf5_refuted | MAF5 with a parameter below one is zero everywhere: the member is an integer. |
| C68_front_dtlz2_refuted | The reference front of DTLZ2, DTLZ3 and DTLZ4 is never returned, whatever the number of points. |
| C69_any_step_size_descends_refuted | The bound on the step matters: with step 3 on x^2/2 (L = 1) the answer is worse than the start. |
| C70_each_step_descends_refuted | Frank-Wolfe is not a descent method: the first step goes two thirds of the way to the solution of the linear problem and can raise the objective. |
| C72_tolerance_refuted | With a tolerance that matters the size of the values does too: the same objectives, run with tolerance 6, stop after different numbers of generations and return different points. |
| C73_within_step_refuted | Adam can move a coordinate by more than the step size. |
| C73_any_rates_refuted | Adam with the second decay rate below the first takes steps that no multiple of the step size bounds. |
| C73_adabelief_refuted | AdaBelief divides by the deviation from the predicted gradient, and no multiple of the step size bounds its steps. |
| C74_batch_evaluate_refuted | Where it does not throw, Evaluate() of a batch adds up the entries of the product of the parameters with themselves instead of their squares: with parameters (0, 1; 0, 0) the regularisation is lost. |
| C74_partial_gradient_intercept_refuted | With an intercept, column j belongs to feature j - 1, but PartialGradient(j) uses feature j. |
| C74_shuffle_refuted | Shuffle() on as many samples as classes transposes the labels: after it the samples no longer go with their labels. |
| C75_worse_child_refuted | It is not so that a survivor is not dominated by anybody who was dropped: children are kept although parents that dominate them are dropped. |
| C75_copied_best_refuted | A best parent that has a copy among the children can be lost, with its copy: the comparison looks individuals up by value, finds the copy, and takes it for a child. |
| C76_gradient_refuted | "Gradient is the gradient of Evaluate" is false even where it returns a result. |
| C76_initial_point_refuted | "Gradient can be called on the problem's own initial point" is false: for the graph that is a cycle on five vertices it raises an exception. |
| C76_cross_sign_refuted | "Cross-in-tray does not depend on the sign of a coordinate", which the four documented minima suggest and the documented formula satisfies, is false of the code. |
| C77_demon_refuted | "DemonSGD does not depend on the origin" is false: it multiplies the iterate by its decay, so even with a zero gradient it moves towards the origin. |
| C78_unbiased_refuted | The naive claim, that the average is the gradient of every smooth function, is false: for x^3 at 0, whose gradient is 0, it is the square of the evaluation step. |
| C78_never_worse_refuted | ... and a gain beyond the bound does make things worse: from 1, the step 2 on x^2 leads to -3. |
| C79_greedy_rate_refuted | Nothing of the kind holds for the greedy policy: where the partial derivatives are negative it keeps picking feature 0, so for f(a, b) = a^2 + b^2, started at (0, -1), every run with it stays where it is, although -- as [C79_cyclic_rate] says -- sweeps would approach 0. |
| C80_adam_refuted | "All SGD policies do" is false: Adam scales every coordinate by itself, and on the linear function x /-> x_1, turned by the angle with cosine 3/5, it goes somewhere else, for every setting of its parameters. |
| C81_spsa_perturbed_refuted | SPSA does not look at the two perturbed evaluations: after one that is infinite it still takes a step. |
| C81_lbfgs_infinite_refuted | L-BFGS does not stop at an infinite objective: it only looks for NaN. Started where the objective is infinite it evaluates again. |
| C82_adam_progress_refuted | Nothing of the kind holds for Adam. The functions 10x, -x, -x are convex with sum 8x; with beta1 = 0, beta2 = 1/101, batch size 1 and no shuffling, every pass of Adam moves the iterate up by at least half the step size, for every step size and every epsilon up to 1/100: the objective rises without bound, although its slope is 8 everywhere. |
| C84_qhadam_adam_refuted | The documentation says that QHAdam with v1 = v2 = 1 is Adam. It is not: for every positive epsilon one step on a function with gradient 1 ends at different points. |
| C84_qhadam_rmsprop_refuted | The documentation says that QHAdam with v1 = 0 and v2 = 1 is RMSProp. It is not, even with epsilon 0: RMSProp has no bias correction. |
| C84_qhadam_nadam_refuted | The documentation says that QHAdam with v1 = beta1 and v2 = 1 is Nadam. It is not, even with epsilon 0, whatever Nadam's schedule decay: the first step of Nadam is longer. |
| C85_spsa_refuted | One might expect an exception to leave the start or a point that was reported as a step. SPSA evaluates the function with the perturbation added to the caller's matrix: if its first evaluation throws, the caller is left with a perturbed start, for every function and every non-zero perturbation. |
| C85_sa_refuted | Simulated annealing makes its move on the caller's matrix before the move is accepted: if the first evaluation of a move throws, the caller is left with a point that was never accepted. |
| C85_de_refuted | One might expect it to be the best point seen. It is not: when objectives 9, 4 and 1 have been found, the first evaluation of the first generation has the worst member in the caller's matrix. |
| C85_cne_refuted | CNE does not keep the best point there either: started at the minimum it has already overwritten the caller's matrix when the first candidate is shown, before that candidate has been evaluated. |
| C86_reaches_the_minimiser_refuted | REFUTED: with a constant step size SGD reaches the minimiser, or at least stays there. On (x-1)^2/2 and (x+1)^2/2 a run started AT the minimiser 0 ends every pass at least h^2 away from it, however many passes it makes: the floor is really there. |
| C87_shared_element_refuted | Parallel SGD is not deterministic when two functions depend on the same element: with two threads, the order of reads and writes decides the result, also with exact arithmetic. |
| C87_too_few_threads_refuted | Too few threads for the share size leave functions out without notice, and then the number of threads does change the result. |
| C88_same_step_size_refuted | REFUTED: a step size that is right for one thread is right for several. On four functions x^2/2 of one element with step size 1, one thread is at the minimiser after the first epoch and stays there, while four threads taking turns multiply the iterate by -3 in every epoch. |
| C89_backoff_converges_refuted | REFUTED: "This stepsize update scheme gives robust 1/k convergence rates" (the documentation of ExponentialBackoff). The cutoff grows by the same amount every time, so the step sizes shrink too fast. On x^2/2 with one thread and ExponentialBackoff(10, 0.01, 0.5) the iterate stays above 71/100 of its start after any number of epochs, while with the constant step size 0.01 it tends to the minimiser 0. |
| C90_vanishing_steps_suffice_refuted | REFUTED: it is enough that the step sizes tend to zero. With step size 2^-i / 8 in epoch i, small enough for x^2/2 (n = L = mu = 1), the iterate never gets below 7/8 of its start. |
| C91_zero_draw_refuted | REFUTED: the same without a bound on the draws. arma::randu() may return 0, and a draw of 0 accepts every move: whatever B, one move on the function B x from x = 0 at temperature 1 ends with the value B. |
| C92_plain_sgd_refuted | "SGD converges for every step size" is false without the adaptation: with VanillaUpdate and step size 3 on x^2 / 2, from 1, the iterate after k steps is (-2)^k. |
| C94_not_quadratic_refuted | On other convex functions one step of the line search can raise the objective: x + (1 - x)^4 / 2 from 0 to 1 has the slopes -1 and 1 at the ends, so that the secant method goes to the middle, where the objective is 17/32 instead of 1/2; with maxIterations = 1 the line search ends there. |
| C95_success_reported_refuted | An exact inner optimizer is not enough for the call to report success, and nor is convergence. On (x - 3)^2 / 2 subject to x = 0, from x = 3 with the default parameters (first multiplier 0, penalty 10, factors 1/4 and 10), the iterates over the reals are 3 / 11^k: every violation is below the threshold, so the penalty parameter stays 10, the test for more than 500000 never passes and the call returns false however many iterations it may use and whatever the tolerance. |
| C96_solution_kept_refuted | The first iteration is different: started at the solution x = 0 of (x - 3)^2 / 2 subject to x = 0, with the default multiplier and penalty parameter, one iteration with an exact inner optimizer ends at 3 / 11, which violates the constraint. |

## Trusted base

* Coq 8.16.1's kernel (`coqc`; `vm_compute` is used in some proofs about concrete runs, `native_compute` is not).
* The reading of the C++ recorded in the comments of the model.  Nothing connects the model to the compiled
  code mechanically.
* No axiom is declared in this development.  The axioms below come from the standard library (its real numbers,
  functional extensionality and excluded middle); the table says which theorem uses which, as printed by
  `Print Assumptions`.

* A1: `ClassicalDedekindReals.sig_forall_dec`
* A2: `ClassicalDedekindReals.sig_not_dec`
* A3: `Classical_Prop.classic`
* A4: `FunctionalExtensionality.functional_extensionality_dep`

| property | theorems | axioms |
|----------|----------|--------|
| C01 | C01_sgd_one_visit_per_epoch | none (closed under the global context) |
| C02 | C02_sgd_max_iterations, C02_sgd_terminates, C02_sgd_zero_functions_undefined | none (closed under the global context) |
| C03 | C03_sgd_exact_objective, C03_sgd_running_objective, C03_sgd_last_pass_refuted, C03_sgd_exact_always_refuted | none (closed under the global context) |
| C04 | C04_sgd_callback_protocol, C04_sgd_begin_and_end | none (closed under the global context) |
| C05 | C05_sgd_stop_request_stops | none (closed under the global context) |
| C06 | C06_dispatch, C06_evaluate_with_gradient, C06_begin_end_reach_all, C06_every_callback_invoked_refuted | none (closed under the global context) |
| C07 | C07_early_stop_at_min_loss, C07_early_stop_binary64 | none (closed under the global context) |
| C08 | C08_store_best_coordinates | none (closed under the global context) |
| C09 | C09_clip_by_value, C09_gradient_clipping_policy | none (closed under the global context) |
| C09 | C09_clip_by_norm, C09_euclid_homogeneous | A1, A2, A4 |
| C10 | C10_methods_agree, C10_supplied_methods_kept, C10_supplied_methods_kept_mixed_refuted | none (closed under the global context) |
| C11 | C11_gradient_descent, C11_gradient_descent_terminates, C11_returned_value_is_final_refuted, C11_categorical_overload, C11_callbacks_heard | none (closed under the global context) |
| C12 | C12_coordinate_descent, C12_cyclic_round_robin, C12_greedy, C12_greedy_steepest_refuted, C12_callbacks_heard | none (closed under the global context) |
| C13 | C13_grid_search, C13_grid_complete | none (closed under the global context) |
| C14 | C14_spsa, C14_spsa_value | A1, A2, A4 |
| C14 | C14_zero_iterations, C14_spsa_terminates | none (closed under the global context) |
| C15 | C15_annealing, C15_move_size_le_maximum_refuted | none (closed under the global context) |
| C16 | C16_differential_evolution, C16_too_small_population_rejected, C16_keeps_the_shape_refuted, C16_random_members_distinct_refuted | none (closed under the global context) |
| C17 | C17_cne, C17_parameters, C17_empty_elite_rejected_refuted, C17_not_worse_than_start_refuted, C17_no_generation_refuted | none (closed under the global context) |
| C18 | C18_pso, C18_returns_the_best_seen, C18_horizon_checked, C18_lbest_is_a_policy, C18_lbest_uses_both_neighbours_refuted, C18_value_matches_point_refuted, C18_zero_horizon_refuted | none (closed under the global context) |
| C18 | C18_initial_positions, C18_scalar_bounds_refuted | A1, A2, A4 |
| C19 | C19_full_selection_sums_everything, C19_random_selection, C19_cmaes, C19_not_worse_than_start, C19_returns, C19_random_selection_not_worse_refuted, C19_single_member_refuted, C19_vector_iterates, C19_matrix_iterates_refuted, C19_zero_batch_refuted | none (closed under the global context) |
| C20 | C20_in_box, C20_identity_inside, C20_continuous, C20_defined, C20_defined_everywhere_refuted, C20_mixed_bounds_refuted | A1, A4 |
| C21 | C21_pop_cmaes, C21_not_worse_than_any_run, C21_cmaes_result_seen, C21_best_of_all_evaluations_refuted, C21_value_is_the_objective_refuted, C21_stop_request_ends_optimization_refuted, C21_budget_counts_evaluations_refuted | none (closed under the global context) |
| C22 | C22_most_recent_pairs, C22_older_pairs_forgotten, C22_zero_basis_refuted | none (closed under the global context) |
| C23 | C23_direction_is_bfgs, C23_descent, C23_always_descent_refuted | A1, A2, A4 |
| C23 | C23_bfgs_matrix | A1, A4 |
| C24 | C24_line_search, C24_value_is_at_iterate_refuted, C24_not_above_start_refuted | none (closed under the global context) |
| C24 | C24_accepted_decrease | A1, A2, A4 |
| C25 | C25_lbfgs, C25_returns, C25_fresh_call_refuted, C25_value_at_iterate_refuted, C25_not_worse_than_start_refuted, C25_callbacks_heard | none (closed under the global context) |
| C25 | C25_values_decrease | A1, A2, A4 |
| C26 | C26_evaluate, C26_gradient | A1, A2, A4 |
| C26 | C26_optimize, C26_returns, C26_true_means_feasible_refuted, C26_constraint_callback_refuted, C26_iterations_refuted | none (closed under the global context) |
| C27 | C27_run, C27_returns, C27_value_at_iterate_refuted, C27_line_search_nan_refuted, C27_callbacks_heard | none (closed under the global context) |
| C27 | C27_stays_in_set, C27_gap_is_a_certificate, C27_line_search | A1, A2, A4 |
| C28 | C28_lpball, C28_groups, C28_wrong_p, C28_empty, C28_fraction_refuted, C28_negative_refuted | A1, A2, A3, A4 |
| C29 | C29_l1, C29_l1_refuted, C29_l1_division, C29_l0_best | A1, A2, A4 |
| C29 | C29_l0, C29_l0_returns, C29_l0_bad | none (closed under the global context) |
| C30 | C30_coordinatewise | none (closed under the global context) |
| C30 | C30_vanilla, C30_momentum, C30_nesterov, C30_quasi_hyperbolic, C30_zero_momentum | A1, A2, A4 |
| C31 | C31_adam, C31_amsgrad, C31_padam, C31_adamax, C31_optimistic_adam, C31_qhadam, C31_adabelief, C31_yogi, C31_nadam, C31_adam_constant_gradient | A1, A2, A4 |
| C31 | C31_ranges, C31_constant_gradient | A1, A4 |
| C32 | C32_adagrad, C32_adasqrt, C32_rmsprop, C32_adadelta, C32_smorms3, C32_wngrad, C32_wngrad_run | A1, A2, A4 |
| C33 | C33_rate_is_clipped, C33_gamma_accessor_refuted | A1, A2, A4 |
| C33 | C33_bounds_converge | A1, A4 |
| C34 | C34_range, C34_restart, C34_restart_constant_period, C34_restart_refuted, C34_decreasing_within_phase_refuted | A1, A2, A4 |
| C34 | C34_schedule, C34_phases, C34_in_sgd | none (closed under the global context) |
| C35 | C35_snapshots, C35_at_most_requested, C35_mean, C35_at_most_requested_refuted, C35_too_many_requested_refuted | none (closed under the global context) |
| C36 | C36_epoch, C36_all_functions, C36_progress, C36_run, C36_single_thread_stop, C36_stop_refuted, C36_value_refuted, C36_backoff | none (closed under the global context) |
| C36 | C36_no_lost_update | A1, A2, A4 |
| C37 | C37_constant_step | none (closed under the global context) |
| C37 | C37_exponential_backoff, C37_backoff_non_increasing, C37_zero_first_epoch | A1, A2, A4 |
| C38 | C38_meaning, C38_irreflexive, C38_asymmetric, C38_transitive, C38_members, C38_nan_refuted | none (closed under the global context) |
| C39 | C39_sort, C39_first, C39_unique, C39_within, C39_nan_refuted | none (closed under the global context) |
| C40 | C40_report, C40_small, C40_match_refuted, C40_no_generation_refuted, C40_no_population_refuted, C40_nan_refuted, C40_evaluations, C40_objectives, C40_crossover_refuted | none (closed under the global context) |
| C41 | C41_report, C41_rejects, C41_self, C41_pareto_refuted, C41_objectives_refuted, C41_columns_refuted, C41_mating_refuted | none (closed under the global context) |
| C41 | C41_weighted, C41_tchebycheff, C41_pbi_refuted | A1, A2, A4 |
| C42 | C42_binomial, C42_partitions, C42_lattice, C42_throws, C42_one_objective_refuted | none (closed under the global context) |
| C42 | C42_simplex, C42_bbs, C42_dirichlet | A1, A2, A4 |
| C43 | C43_igd, C43_igd_zero, C43_igd_plus_le, C43_igd_better_refuted | A1, A2, A3, A4 |
| C43 | C43_igd_plus, C43_igd_plus_zero, C43_epsilon, C43_igd_plus_better, C43_epsilon_better | A1, A2, A4 |
| C43 | C43_epsilon_zero_refuted | A1, A4 |
| C43 | C43_empty_refuted | none (closed under the global context) |
| C44 | C44_any, C44_tidy, C44_owner, C44_copy_refuted, C44_overwrite_refuted, C44_null_refuted | none (closed under the global context) |
| C45 | C45_index | none (closed under the global context) |
| C45 | C45_size, C45_inverse, C45_dot, C45_kron, C45_sparse, C45_length_refuted | A1, A2, A4 |
| C46 | C46_augmented_value, C46_augmented_gradient, C46_unsymmetric_gradient_refuted, C46_constraint_value, C46_returned_value | A1, A2, A4 |
| C46 | C46_returned_value_refuted | none (closed under the global context) |
| C47 | C47_validation, C47_value_refuted, C47_callbacks, C47_end_refuted | none (closed under the global context) |
| C47 | C47_direction, C47_run | A1, A2, A3, A4 |
| C47 | C47_step_length, C47_tau_one_refuted | A1, A2, A4 |
| C48 | C48_two_variables, C48_more_variables, C48_n_variables, C48_logistic, C48_away_from_kinks, C48_epsilon, C48_matyas_refuted, C48_fw_test_refuted, C48_rastrigin_refuted, C48_eggholder_refuted, C48_gockenbach_refuted | A1, A2, A3, A4 |
| C49 | C49_orders | none (closed under the global context) |
| C49 | C49_sphere, C49_styblinski_tang, C49_sparse_test, C49_generalized_rosenbrock, C49_generalized_rosenbrock_refuted | A1, A4 |
| C49 | C49_schwefel, C49_sgd_test, C49_rastrigin_refuted | A1, A2, A4 |
| C49 | C49_logistic | A1, A2, A3, A4 |
| C50 | C50_two_variables, C50_more_variables, C50_easom, C50_mc_cormick, C50_plane_refuted, C50_schwefel_refuted | A1, A2, A3, A4 |
| C50 | C50_n_variables, C50_drop_wave_refuted | A1, A2, A4 |
| C50 | C50_styblinski_tang | A1, A4 |
| C51 | C51_lookahead, C51_returns, C51_inner_limit, C51_zero_refuted, C51_inner_stop_refuted, C51_value_refuted | none (closed under the global context) |
| C51 | C51_convex_rate | A1, A2, A4 |
| C52 | C52_adam_phase, C52_sgd_phase, C52_fresh_run_starts_with_adam_refuted | A1, A2, A4 |
| C53 | C53_svrg, C53_returns, C53_zero_batch_refuted, C53_bb, C53_inner_limit_refuted, C53_value_refuted | none (closed under the global context) |
| C53 | C53_average, C53_unbiased | A1, A2, A4 |
| C54 | C54_sarah, C54_sarah_returns, C54_sarah_zero_batch_refuted, C54_sarah_full_batch_refuted, C54_sarah_plus_told_refuted, C54_katyusha, C54_katyusha_returns, C54_katyusha_zero_batch_refuted, C54_leaves_minimum_refuted, C54_full_gradient_point_refuted | none (closed under the global context) |
| C54 | C54_sarah_mean, C54_sarah_drift, C54_convex_combination, C54_katyusha_mean, C54_katyusha_mean_refuted, C54_snapshot_weights_refuted | A1, A2, A4 |
| C55 | C55_bigbatch, C55_covers, C55_never_shrinks, C55_size_after, C55_overshoot, C55_grown_gradient_refuted, C55_single_never_grows, C55_two_variance_refuted, C55_adaptive_moves_twice_refuted | none (closed under the global context) |
| C56 | C56_policy, C56_negative_threshold_refuted | A1, A2, A4 |
| C56 | C56_no_false_alarm, C56_relaxed_average | A1, A4 |
| C56 | C56_spalera, C56_ends, C56_first_epoch_refuted, C56_negative_objective_refuted | none (closed under the global context) |
| C57 | C57_iqn, C57_ends, C57_uneven_batches_refuted, C57_column_refuted | none (closed under the global context) |
| C57 | C57_newton_step, C57_gap_zero | A1, A2, A4 |
| C57 | C57_secant | A1, A4 |
| C57 | C57_posdef | A1, A3, A4 |
| C58 | C58_clip_range | A1, A4 |
| C58 | C58_eve, C58_eve_terminates | A1, A2, A4 |
| C58 | C58_eve_run, C58_stopped_run_returns_pass_sum_refuted | none (closed under the global context) |
| C59 | C59_sgd, C59_lbfgs, C59_auglag, C59_auglag_default, C59_auglag_members, C59_svrg, C59_sarah, C59_katyusha, C59_spalera, C59_demon_refuted, C59_wngrad_refuted, C59_swats_refuted, C59_sgdr_refuted, C59_snapshot_refuted, C59_lbfgs_refuted, C59_auglag_refuted, C59_sa_refuted, C59_inner_iterations_refuted, C59_bigbatch_refuted, C59_pso, C59_parallel_backoff, C59_parallel_backoff_refuted, C59_pso_bounds_refuted | none (closed under the global context) |
| C59 | C59_pso_static_refuted | A1, A2, A4 |
| C60 | C60_sgd, C60_eve, C60_gradient_descent, C60_cd, C60_frank_wolfe, C60_lbfgs, C60_aug_lagrangian, C60_parallel_sgd, C60_primal_dual, C60_svrg, C60_sarah, C60_katyusha, C60_lookahead, C60_iqn, C60_spalera, C60_bigbatch, C60_cmaes, C60_spsa_refuted, C60_sa_refuted, C60_demon_refuted | none (closed under the global context) |
| C60 | C60_linesearch_refuted | A1, A2, A4 |
| C61 | C61_sgd, C61_eve, C61_gradient_descent, C61_spsa, C61_frank_wolfe, C61_coordinate_descent, C61_pso, C61_parallel_sgd, C61_nsga2, C61_moead, C61_svrg, C61_sarah, C61_katyusha, C61_bigbatch, C61_spalera, C61_sa, C61_de, C61_cne, C61_cmaes, C61_lbfgs, C61_iqn, C61_auglag, C61_lookahead, C61_primal_dual, C61_first_refuted, C61_pop_cmaes_refuted, C61_lookahead_refuted | none (closed under the global context) |
| C62 | C62_ftml_follows_the_leader, C62_ftml_counter_initialised_refuted, C62_demon_coefficient, C62_demon_range_always_refuted, C62_demon_schedule, C62_demon_reaches_zero_refuted, C62_demon_is_momentum_refuted | A1, A2, A4 |
| C63 | C63_sgd_moves_by_policy | none (closed under the global context) |
| C64 | C64_report, C64_ends, C64_elite, C64_scores, C64_extremes, C64_small, C64_iterate_refuted, C64_front_refuted, C64_no_generation_refuted, C64_no_population_refuted | none (closed under the global context) |
| C65 | C65_weights, C65_learning_rates, C65_covariance, C65_samples, C65_update, C65_returns, C65_active_paths, C65_published_path_refuted | A1, A2, A3, A4 |
| C65 | C65_active_covariance, C65_active_update, C65_active_repair_refuted | A1, A2, A4 |
| C65 | C65_active_few_members_refuted | none (closed under the global context) |
| C66 | C66_func_sq, C66_atoms, C66_update_span, C66_first_gap, C66_span_run, C66_update_full_correction, C66_line_search, C66_span_descends_refuted, C66_span_feasible_refuted, C66_prune_cheapest_refuted, C66_full_correction_improves_refuted | A1, A2, A4 |
| C67 | C67_print_loss, C67_timer_stop, C67_query_front, C67_report, C67_report_reused, C67_truncated_column, C67_bar_totals, C67_query_rate_refuted, C67_report_safe_refuted, C67_reached_refuted, C67_truncated_matrix_refuted | none (closed under the global context) |
| C67 | C67_progress_bar, C67_bar, C67_percentage_refuted, C67_bar_length_refuted, C67_wide_bar_refuted, C67_bar_loss_refuted, C67_report_extremes | A1, A2, A4 |
| C68 | C68_agree_two, C68_agree_three, C68_zdt1, C68_zdt3, C68_zdt4, C68_dtlz1, C68_dtlz2, C68_dtlz3, C68_dtlz4, C68_dtlz5, C68_dtlz7, C68_maf3, C68_maf4, C68_maf5, C68_maf6, C68_front_zdt1, C68_front_zdt2, C68_front_zdt3, C68_front_zdt4, C68_front_dtlz1, C68_dtlz_seen_refuted, C68_dtlz7_half_refuted, C68_maf2_refuted, C68_maf4_refuted, C68_maf5_refuted, C68_front_dtlz2_refuted | A1, A2, A4 |
| C68 | C68_zdt2, C68_maf1, C68_schaffer | A1, A4 |
| C68 | C68_zdt6, C68_dtlz6, C68_fonseca, C68_front_zdt6, C68_dtlz_objectives, C68_dtlz5_all_refuted | A1, A2, A3, A4 |
| C69 | C69_descends, C69_gradients_vanish, C69_tolerance_means_small_gradient, C69_evaluations_bounded, C69_convex_rate, C69_convex_approaches, C69_linear_rate | A1, A2, A3, A4 |
| C69 | C69_any_step_size_descends_refuted | A1, A2, A4 |
| C70 | C70_classic_rate | A1, A2, A3, A4 |
| C70 | C70_each_step_descends_refuted | A1, A2, A4 |
| C71 | C71_sgd_regret, C71_sgd_passes, C71_adagrad_regret | A1, A2, A4 |
| C72 | C72_de, C72_cne, C72_pso, C72_lbest, C72_cmaes, C72_grid_search, C72_tolerance_refuted | none (closed under the global context) |
| C72 | C72_increasing | A1, A2, A4 |
| C73 | C73_adam, C73_amsgrad, C73_optimistic_adam, C73_qhadam, C73_nadam, C73_nadamax, C73_adamax, C73_yogi, C73_adagrad, C73_rmsprop, C73_adasqrt, C73_wngrad, C73_run, C73_within_step_refuted, C73_any_rates_refuted, C73_adabelief_refuted | A1, A2, A4 |
| C74 | C74_evaluate, C74_nonnegative, C74_gradient, C74_batch_gradient, C74_convex, C74_stationary_is_minimum, C74_singles, C74_batch_evaluate_throws, C74_batch_evaluate_refuted | A1, A2, A3, A4 |
| C74 | C74_probabilities, C74_partial_gradient, C74_partial_last_throws, C74_partial_gradient_intercept_refuted | A1, A2, A4 |
| C74 | C74_shuffle_throws | A1 |
| C74 | C74_shuffle_refuted | A1, A4 |
| C75 | C75_crowding, C75_survivors, C75_no_loss | A1, A2, A4 |
| C75 | C75_worse_child_refuted, C75_copied_best_refuted | none (closed under the global context) |
| C76 | C76_objective, C76_trace_constraint, C76_edge_constraint, C76_gradient, C76_gradient_refuted | A1, A4 |
| C76 | C76_initial_rows, C76_initial_trace, C76_initial_point_refuted, C76_holder | A1, A2, A4 |
| C76 | C76_cross_in_tray, C76_cross_sign_refuted, C76_schaffer_n4 | A1, A2, A3, A4 |
| C77 | C77_sgd, C77_momentum, C77_adam, C77_rates, C77_ftml, C77_unscaled, C77_demon_refuted | A1, A2, A4 |
| C78 | C78_outcomes | none (closed under the global context) |
| C78 | C78_unbiased, C78_bias, C78_unbiased_refuted, C78_never_worse, C78_never_worse_refuted, C78_average_rate | A1, A2, A4 |
| C79 | C79_descends, C79_random_rate, C79_cyclic_rate, C79_greedy_rate_refuted | A1, A2, A4 |
| C79 | C79_choices | none (closed under the global context) |
| C80 | C80_gradient_descent, C80_lbfgs, C80_sgd, C80_adam_refuted | A1, A2, A4 |
| C80 | C80_reorder, C80_reorder_gd | none (closed under the global context) |
| C81 | C81_doubles, C81_gradient_descent, C81_coordinate_descent, C81_parallel_sgd, C81_lookahead, C81_sgd, C81_eve, C81_big_batch, C81_spalera, C81_svrg, C81_sarah, C81_katyusha, C81_iqn, C81_spsa, C81_lbfgs, C81_spsa_perturbed_refuted, C81_lbfgs_infinite_refuted | none (closed under the global context) |
| C82 | C82_momentum_regret, C82_nesterov_regret, C82_qh_regret, C82_adam_progress_refuted, C82_amsgrad_progress | A1, A2, A4 |
| C83 | C83_svrg, C83_sarah | A1, A2, A3, A4 |
| C84 | C84_momentum, C84_qhsgd, C84_adam, C84_qhadam, C84_full_batch_sgd, C84_full_batch_svrg, C84_qhadam_adam_refuted, C84_qhadam_rmsprop_refuted | A1, A2, A4 |
| C84 | C84_qhadam_nadam_refuted | A1, A2, A3, A4 |
| C85 | C85_sgd, C85_sgd_log, C85_gd, C85_cd, C85_lbfgs, C85_sa, C85_sa_refuted, C85_de, C85_cne, C85_de_refuted, C85_cne_refuted | none (closed under the global context) |
| C85 | C85_spsa, C85_spsa_refuted | A1, A2, A4 |
| C86 | C86_near_the_minimiser, C86_interpolation, C86_any_accuracy | A1, A2, A3, A4 |
| C86 | C86_reaches_the_minimiser_refuted | A1, A2, A4 |
| C87 | C87_epoch, C87_elements, C87_one_thread, C87_deterministic, C87_shared_element_refuted, C87_too_few_threads_refuted | none (closed under the global context) |
| C87 | C87_sparse_test_function | A1, A2, A4 |
| C88 | C88_near_the_minimiser, C88_interpolation, C88_any_accuracy | A1, A2, A3, A4 |
| C88 | C88_same_step_size_refuted | none (closed under the global context) |
| C89 | C89_no_further_than_the_steps, C89_backoff_steps_are_summable, C89_backoff_stays_near_the_start, C89_sparse_test_function, C89_backoff_converges_refuted | A1, A2, A4 |
| C90 | C90_every_epoch, C90_converges | A1, A2, A3, A4 |
| C90 | C90_harmonic_steps | A1, A4 |
| C90 | C90_vanishing_steps_suffice_refuted | A1, A2, A4 |
| C91 | C91_bounded_rise, C91_zero_draw_refuted | A1, A2, A3, A4 |
| C92 | C92_any_step_size, C92_one_function | A1, A2, A3, A4 |
| C92 | C92_plain_sgd_refuted | A1, A2, A4 |
| C93 | C93_any_step_size, C93_search_ends, C93_returns | A1, A2, A3, A4 |
| C94 | C94_line_search_exact | A1, A2, A4 |
| C94 | C94_rate, C94_not_quadratic_refuted | A1, A2, A3, A4 |
| C95 | C95_returned, C95_convex, C95_success_reported_refuted | A1, A2, A4 |
| C96 | C96_rate, C96_violation_never_grows, C96_solution_kept_refuted | A1, A2, A4 |
