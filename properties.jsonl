{"id": "C01", "title": "Every optimizer terminates within its iteration budget", "statement": "A call of minimize (de, pso, cpso, na, cmaes, vdcma) never iterates for ever: the main loop stops, and a returned result has nit <= max(2, maxiter) for de/pso/cpso/na and nit <= maxiter for cmaes/vdcma. The first of these is tight: with maxiter = 1 the population methods still perform 2 iterations.", "quantifier": "every objective (also stateful or raising), every random stream, every callback, every option record including maxiter <= 1", "why_tests_cant": "termination for all objectives and random streams is a universal statement over infinitely many runs; a test observes finitely many", "anchors": ["stochopy/optimize/de/_de.py:de", "stochopy/optimize/cpso/_cpso.py:cpso", "stochopy/optimize/na/_na.py:na", "stochopy/optimize/cmaes/_cmaes.py:cmaes,converge", "stochopy/optimize/vdcma/_vdcma.py:vdcma"]}
{"id": "C02", "title": "nfev is the exact number of objective evaluations", "statement": "When an optimizer returns, result.nfev equals the number of times the user's objective was called during the run, and equals nit * popsize (immediate and deferred updating alike); no call is hidden or double counted.", "quantifier": "every objective, random stream, backend, updating mode, constraints and option record for which the call returns", "why_tests_cant": "tests do not count calls, and a count on a few runs says nothing about restarts, early stops or other modes", "anchors": ["stochopy/optimize/de/_de.py:de", "stochopy/optimize/cpso/_cpso.py:cpso", "stochopy/optimize/na/_na.py:na", "stochopy/optimize/cmaes/_cmaes.py:cmaes", "stochopy/optimize/vdcma/_vdcma.py:vdcma"]}
{"id": "C03", "title": "The callback is called exactly once per iteration, in order, with truthful state", "statement": "If a callback is given it is called exactly nit times; the k-th call carries state.nit = k and state.nfev = k * popsize, which is the number of objective calls made so far; the last call's x, fun, nfev and nit are the ones of the returned result. Without a callback nothing is called.", "quantifier": "every run that returns, every optimizer, every option record", "why_tests_cant": "the test-suite counts callbacks for one random maxiter on one objective; the claim ranges over all runs and all iterations of them", "anchors": ["stochopy/optimize/de/_de.py:de", "stochopy/optimize/cpso/_cpso.py:cpso", "stochopy/optimize/na/_na.py:na", "stochopy/optimize/cmaes/_cmaes.py:cmaes", "stochopy/optimize/vdcma/_vdcma.py:vdcma"]}
{"id": "C04", "title": "status, success and message agree and tell the truth", "statement": "For every returned result: success is True iff status >= 0; message is the documented text of status; status 1 or 0 implies fun <= ftol; status 0 moreover implies that the last move of the best solution (of the mean for cmaes/vdcma) was at most xtol; status -1 implies nit >= maxiter; de/pso/cpso/na only return -1, 0 or 1; cmaes/vdcma only return a code of the documented table.", "quantifier": "every run of every optimizer that returns", "why_tests_cant": "the relation must hold for every reachable final state, not for the handful that tests reach", "anchors": ["stochopy/optimize/_common.py:messages,selection_sync,selection_async", "stochopy/optimize/cmaes/_cmaes.py:converge"]}
{"id": "C05", "title": "Population methods return the best point they ever evaluated", "statement": "With de (both updating modes), pso/cpso and na: the returned (x, fun) is a pair that the objective was really evaluated at / really returned during the run, and no evaluation of the run returned a smaller value. For cpso with competitivity this needs every objective value to be below 1e30 (see C17).", "quantifier": "every objective whose values at the initial population are not NaN, every random stream, all runs that return", "why_tests_cant": "only a proof covers every sequence of improvements, ties and restarts", "anchors": ["stochopy/optimize/_common.py:selection_sync,selection_async", "stochopy/optimize/de/_de.py:de_sync,de_async", "stochopy/optimize/cpso/_cpso.py:pso_sync,pso_async", "stochopy/optimize/na/_na.py:na"]}
{"id": "C06", "title": "The reported best value never gets worse", "statement": "The sequence of state.fun values handed to the callback is non-increasing, for de, pso, cpso (all values below 1e30) and na.", "quantifier": "every run, every pair of consecutive iterations", "why_tests_cant": "tests never look at intermediate states", "anchors": ["stochopy/optimize/_common.py:selection_sync,selection_async", "stochopy/optimize/cpso/_cpso.py:restart"]}
{"id": "C07", "title": "Deferred updating stops at the first iteration that reaches ftol", "statement": "In deferred mode (also workers > 1, mpi, and na) the run stops in the first iteration k >= 2 whose best value is <= ftol: every callback state from the second up to the last but one has fun > ftol, and if the returned status is -1 then fun > ftol.", "quantifier": "every run in deferred mode, every objective without NaN", "why_tests_cant": "first-hitting claims quantify over all prefixes of all runs", "anchors": ["stochopy/optimize/_common.py:selection_sync"]}
{"id": "C08", "title": "Immediate updating honours ftol only through the last individual", "statement": "In immediate mode (the default) only the outcome of the last individual of a generation decides about convergence: a run can reach fun <= ftol, keep iterating until maxiter and return success = False, status = -1. Whenever a run returns status 0 or 1 the last evaluated individual is the returned x and its value is <= ftol.", "quantifier": "every run of de/pso/cpso in immediate mode; the violation is exhibited by a concrete run in binary64 arithmetic", "why_tests_cant": "needs a run where another individual than the last one converges; no test covers it and a passing test cannot exclude it", "anchors": ["stochopy/optimize/de/_de.py:de_async", "stochopy/optimize/cpso/_cpso.py:pso_async", "stochopy/optimize/_common.py:selection_async"]}
{"id": "C09", "title": "One NaN in the initial population poisons the result", "statement": "If the objective returns NaN at some point of the initial population, de (both modes), pso and na return fun = NaN for ever after: no later evaluation, however good, is reported. A NaN at a later evaluation is never selected as best.", "quantifier": "every objective, every random stream, every later evaluation", "why_tests_cant": "tests use NaN-free objectives", "anchors": ["stochopy/optimize/_common.py:selection_sync,selection_async", "stochopy/optimize/de/_de.py:de", "stochopy/optimize/cpso/_cpso.py:cpso", "stochopy/optimize/na/_na.py:na"]}
{"id": "C10", "title": "DE with constraints='Random' only evaluates feasible points", "statement": "With constraints='Random' every point evaluated after the initial population lies inside the bounds (not below lower and not above upper in each coordinate), also in floating point; if x0 is feasible (or the exact-arithmetic Latin Hypercube is used) every evaluated point and the returned x are feasible.", "quantifier": "every bounds with lower <= upper, every objective, random stream, strategy, updating mode, iteration", "why_tests_cant": "feasibility must hold for every evaluation of every run; the suite checks one seed with a tolerance", "anchors": ["stochopy/optimize/de/_constraints.py:Random", "stochopy/optimize/de/_de.py:de_sync,de_async"]}
{"id": "C11", "title": "PSO/CPSO with constraints='Shrink' never leaves the bounds", "statement": "With constraints='Shrink' every evaluated point lies in the bounds provided the initial swarm does, in exact arithmetic; in binary64 arithmetic the bound can be overshot by rounding (counterexample).", "quantifier": "every bounds, velocity, random stream, restart, iteration", "why_tests_cant": "the suite checks two seeds, with a tolerance of 1e-15 that hides the rounding effect", "anchors": ["stochopy/optimize/cpso/_constraints.py:Shrink", "stochopy/optimize/cpso/_cpso.py:mutation,restart"]}
{"id": "C12", "title": "CMA-ES / VD-CMA with constraints='Penalize' only evaluate feasible points", "statement": "With constraints='Penalize' every point passed to the objective, and the returned x, lie within the bounds (exact arithmetic), whatever the covariance matrix, step size and mean have become.", "quantifier": "every bounds, every mean/covariance/step-size history, every random stream", "why_tests_cant": "holds for all reachable internal states, of which tests see a few", "anchors": ["stochopy/optimize/cmaes/_constraints.py:Penalize", "stochopy/optimize/cmaes/_cmaes.py:cmaes", "stochopy/optimize/vdcma/_vdcma.py:vdcma"]}
{"id": "C13", "title": "NA only evaluates feasible points", "statement": "Every point na evaluates lies in the bounds if the initial population does, including coordinates with lower == upper, which are always evaluated at exactly that value.", "quantifier": "every history of sampled models, every random stream, every objective, degenerate intervals included", "why_tests_cant": "the Voronoi-cell walk divides by coordinate differences that may be zero; only a proof covers all coincidences", "anchors": ["stochopy/optimize/na/_na.py:na,mutation"]}
{"id": "C14", "title": "Latin Hypercube initialisation is stratified and feasible", "statement": "Without x0 the initial population of de/pso/cpso/na has popsize rows; in every coordinate exactly one individual lies in each of the popsize equal strata of [lower, upper] (and always in the lower half of the stratum); all are within the bounds.", "quantifier": "every popsize >= 1, ndim, bounds with lower <= upper, every random stream and permutation", "why_tests_cant": "a universally quantified combinatorial statement on random permutations", "anchors": ["stochopy/optimize/_common.py:lhs"]}
{"id": "C15", "title": "Parallel evaluation does not change the result", "statement": "For a pure objective, the result of a deferred run is the same for serial, joblib (threading, loky) and MPI evaluation: it does not depend on the order in which workers finish, on the number of MPI ranks or on the order of the MPI reduction, and the set of evaluated points is the same.", "quantifier": "every schedule of the workers, every number of ranks, every reduction tree, every objective value other than the float -0.0", "why_tests_cant": "schedules cannot be enumerated by tests", "anchors": ["stochopy/optimize/_common.py:optimizer"]}
{"id": "C16", "title": "PSO is CPSO without competition", "statement": "minimize(method='pso', ...) behaves exactly like method='cpso' with competitivity=None and like competitivity=0: same result, same evaluations, same callbacks.", "quantifier": "every argument list, objective, random stream", "why_tests_cant": "equality of two programs on all inputs", "anchors": ["stochopy/optimize/pso/_pso.py:minimize", "stochopy/optimize/cpso/_cpso.py:minimize,cpso"]}
{"id": "C17", "title": "A CPSO restart never loses the best solution", "statement": "The competitive restart resets at most popsize - 1 particles, never all with the best personal value, resets exactly the nw worst ones to zero velocity and a uniform position inside the bounds, leaves all others untouched. Because it marks them with the fitness 1e30, deferred cpso can return a value that the objective never returned when objective values exceed 1e30 (e.g. inf penalties).", "quantifier": "every swarm, fitness vector with ties, iteration number, competitivity", "why_tests_cant": "argsort tie-breaking and the sentinel value need a for-all argument", "anchors": ["stochopy/optimize/cpso/_cpso.py:restart"]}
{"id": "C18", "title": "return_all records exactly one slice per iteration with max(1, ceil(verbosity*popsize)) rows", "statement": "With return_all the result has xall and funall with exactly nit entries; each entry has max(1, ceil(verbosity*popsize)) rows; verbosity > 1 is an error (ValueError) and so is maxiter = 1 (IndexError) for the population methods. For pso/cpso (and cmaes/vdcma without constraints) funall[k][j] is the objective value at xall[k][j].", "quantifier": "every run, every verbosity, every iteration and row", "why_tests_cant": "the shape depends on when the run stops and on rounding of verbosity*popsize", "anchors": ["stochopy/optimize/de/_de.py:de", "stochopy/optimize/cpso/_cpso.py:cpso", "stochopy/optimize/na/_na.py:na", "stochopy/optimize/cmaes/_cmaes.py:cmaes", "stochopy/optimize/vdcma/_vdcma.py:vdcma"]}
{"id": "C19", "title": "DE and NA return_all rows do not always match: exact characterisation", "statement": "de records the selected population in xall but the fitness of the trial vectors in funall, so funall[k][j] need not be the objective at xall[k][j] (counterexample); it is never smaller than the selected individual's value. na records the first slice xall[0] in normalised coordinates instead of model coordinates.", "quantifier": "every run for the inequality; concrete binary64 runs for the mismatches", "why_tests_cant": "a relation between two arrays for all iterations and individuals", "anchors": ["stochopy/optimize/de/_de.py:de,de_sync,de_async", "stochopy/optimize/na/_na.py:na"]}
{"id": "C20", "title": "DE needs enough individuals for its strategy", "statement": "A DE run whose arguments pass validation raises IndexError in its first iteration iff popsize - 1 is smaller than the number of individuals the strategy needs (rand1bin 3, rand2bin 5, best1bin 2, best2bin 4); otherwise no such error occurs. popsize = 2 is accepted by validation but fails with every strategy.", "quantifier": "every strategy, popsize, objective, random stream, updating mode", "why_tests_cant": "an iff over all population sizes", "anchors": ["stochopy/optimize/de/_strategy.py", "stochopy/optimize/de/_de.py:delete_shuffle_async,delete_shuffle_sync"]}
{"id": "C21", "title": "DE trial vectors are proper differential-evolution trials", "statement": "Each trial vector of individual i takes every coordinate either from the mutant or from individual i, at least one coordinate from the mutant, and the mutant is built by the strategy's formula from pairwise distinct individuals all different from i.", "quantifier": "every population, permutation, crossover draw, dimension, strategy", "why_tests_cant": "distinctness must hold for every permutation drawn", "anchors": ["stochopy/optimize/de/_de.py:de_sync,de_async,delete_shuffle_async", "stochopy/optimize/de/_strategy.py"]}
{"id": "C22", "title": "Invalid arguments are rejected before any objective call", "statement": "minimize/sample raise ValueError, TypeError, KeyError, IndexError or OverflowError, without ever calling the objective or the callback, exactly when an argument violates its documented range (fun not callable, bounds not 2-D, x0 of wrong shape, popsize < 2, mutation outside [0,2], recombination outside [0,1], inertia/cognitivity/sociability/competitivity out of range, nrperc/muperc outside (0,1], sigma <= 0, unknown updating, callback not callable, a sampler without x0 whose bounds are not finitely far apart, ...); NaN parameters are rejected by the two-sided range checks but NaN sigma is accepted.", "quantifier": "every argument record", "why_tests_cant": "the claim is an equivalence over all argument records", "anchors": ["stochopy/optimize/de/_de.py:minimize", "stochopy/optimize/cpso/_cpso.py:minimize", "stochopy/optimize/na/_na.py:minimize", "stochopy/optimize/cmaes/_cmaes.py:minimize", "stochopy/optimize/vdcma/_vdcma.py:minimize", "stochopy/sample/mcmc/_mcmc.py:sample", "stochopy/sample/hmc/_hmc.py:sample"]}
{"id": "C23", "title": "Which mode runs, and unknown backends", "statement": "A run is deferred iff updating='deferred' or workers not in {0,1} or backend='mpi'. A backend name other than loky/threading/mpi is never reported as an error: the population is evaluated serially.", "quantifier": "every combination of updating, workers and backend string", "why_tests_cant": "the set of backend strings is infinite; the raise in the code is unreachable, which only a proof shows", "anchors": ["stochopy/optimize/_common.py:optimizer", "stochopy/optimize/de/_de.py:minimize", "stochopy/optimize/cpso/_cpso.py:minimize"]}
{"id": "C24", "title": "Effect on the caller's x0 array", "statement": "de (both modes) and cpso/pso in immediate mode overwrite the caller's x0 array in place with the running population; cpso/pso deferred, na, cmaes and vdcma leave it unchanged.", "quantifier": "every run with x0 given as a float array", "why_tests_cant": "absence of mutation must hold for all runs", "anchors": ["stochopy/optimize/de/_de.py:de", "stochopy/optimize/cpso/_cpso.py:cpso", "stochopy/optimize/na/_na.py:na", "stochopy/optimize/cmaes/_cmaes.py:cmaes"]}
{"id": "C25", "title": "Exceptions of the objective or callback propagate immediately", "statement": "If the objective or the callback raises, minimize/sample raise that very exception and make no further objective or callback call; conversely if the call returns no user exception was swallowed.", "quantifier": "every point of every run at which user code may raise, serial evaluation", "why_tests_cant": "crash points cannot be enumerated", "anchors": ["stochopy/optimize/_common.py:optimizer", "stochopy/optimize/de/_de.py:de", "stochopy/optimize/cpso/_cpso.py:cpso", "stochopy/optimize/na/_na.py:na", "stochopy/optimize/cmaes/_cmaes.py:cmaes", "stochopy/optimize/vdcma/_vdcma.py:vdcma", "stochopy/sample/mcmc/_mcmc.py:sample", "stochopy/sample/hmc/_hmc.py:sample"]}
{"id": "C26", "title": "CMA-ES and VD-CMA return the best of the last generation only", "statement": "cmaes and vdcma return the best point of the final generation (value <= every value of that generation, and x is that point); they may have evaluated a strictly better point earlier that is not returned (counterexample). With constraints='Penalize' the points are ranked by the value plus a weighted squared distance of the drawn point to the box: fun is the smallest such rank and x the point evaluated for it, at the end and in every callback state; so the result can be the worst point of its generation (counterexample: x=-0.795 returned for -x on [-1,1] although 1 was evaluated three times in the same generation).", "quantifier": "every run; concrete run for the counterexample", "why_tests_cant": "a relation on all evaluations of a run", "anchors": ["stochopy/optimize/cmaes/_cmaes.py:cmaes", "stochopy/optimize/vdcma/_vdcma.py:vdcma"]}
{"id": "C27", "title": "CMA-ES recombination weights and learning rates are well formed", "statement": "For mu >= 1 parents the recombination weights are positive, strictly decreasing, sum to one, 1 <= mueff <= mu, and the learning rates satisfy 0 < cc <= 1, 0 < cs < 1, 0 < c1, 0 <= cmu, c1 + cmu <= 1, damps >= 1.", "quantifier": "every popsize, muperc with int(muperc*popsize) >= 1, every ndim >= 1", "why_tests_cant": "inequalities over all dimensions and population sizes", "anchors": ["stochopy/optimize/cmaes/_cmaes.py:cmaes"]}
{"id": "C28", "title": "The CMA-ES covariance matrix stays symmetric positive definite", "statement": "In exact arithmetic the covariance update maps a symmetric positive definite matrix to a symmetric positive definite matrix whenever c1 + cmu < 1 (and to a positive semi-definite one when c1 + cmu = 1), so the square roots of its diagonal and eigenvalues are defined in every iteration.", "quantifier": "every covariance matrix, selected steps, evolution path, iteration", "why_tests_cant": "invariant over all iterations and all matrices", "anchors": ["stochopy/optimize/cmaes/_cmaes.py:cmaes"]}
{"id": "C29", "title": "EqualFunValues and TolFun are measured against zero", "statement": "Because unfilled history entries count as 0, cmaes/vdcma stop with status -5 or -7 only if every best value in the inspected window lies within 1e-10 (1e-12) of 0; for a constant objective c with |c| >= 1e-10 they never stop that way.", "quantifier": "every run, every objective", "why_tests_cant": "absence of a stop is a statement on all iterations", "anchors": ["stochopy/optimize/cmaes/_cmaes.py:converge"]}
{"id": "C30", "title": "Penalize never improves a value and treats the two bounds differently", "statement": "With constraints='Penalize' the recorded fitness is the objective at the clipped point plus a non-negative penalty that is zero for points already inside; hence the returned fun can exceed the objective at the returned x. A coordinate whose mean is below the lower bound never gets its boundary weight increased, one above the upper bound may.", "quantifier": "every population, mean, weight vector, covariance diagonal > 0", "why_tests_cant": "inequality over all real inputs, and an absence claim", "anchors": ["stochopy/optimize/cmaes/_constraints.py:Penalize"]}
{"id": "C31", "title": "VD-CMA keeps its scaling positive and does not adapt in low dimension", "statement": "In exact arithmetic the truncated natural-gradient step changes each component of the diagonal scaling by at most 70 percent, so in a run whose mean keeps moving all components stay positive (when the mean stands still exactly, the injected points are NaN); for ndim <= 5 both learning rates are <= 0, so the shape (scaling and direction) of the search distribution never changes.", "quantifier": "every dimension, every state, every selected sample", "why_tests_cant": "invariant over all iterations", "anchors": ["stochopy/optimize/vdcma/_vdcma.py:vdcma"]}
{"id": "C32", "title": "MCMC returns a genuine Metropolis chain", "statement": "sample(method='mcmc') returns xall/funall of length maxiter with xall[0] = x0, funall[i] = fun(xall[i]) for every i; each xall[i] is either xall[i-1] or a proposal that differs from xall[i-1] only in the perturbed block; accept_ratio is (number of accepted proposals)/maxiter.", "quantifier": "every objective, random stream, perc, maxiter for which the call returns", "why_tests_cant": "invariant along the whole chain", "anchors": ["stochopy/sample/mcmc/_mcmc.py:sample"]}
{"id": "C33", "title": "The Metropolis acceptance rule is correct", "statement": "A proposal (mcmc) is accepted iff log(u) < min(0, f(x) - f(y)), i.e. iff u < exp(min(0, f(x)-f(y))): downhill or equal moves are always accepted, and the acceptance thresholds satisfy detailed balance exp(-f(x)) a(x,y) = exp(-f(y)) a(y,x).", "quantifier": "every pair of values and every uniform draw in [0,1)", "why_tests_cant": "real-valued identity for all inputs", "anchors": ["stochopy/sample/mcmc/_mcmc.py:sample", "stochopy/sample/hmc/_hmc.py:sample"]}
{"id": "C34", "title": "MCMC reports the best accepted proposal, not the best sample", "statement": "The mcmc result's (x, fun) is the first best accepted proposal; the initial sample is ignored, so if no proposal is accepted fun is infinite, and if the start is the best sample it is not reported (counterexample). If some accepted value is below inf then fun is the minimum of accepted values and fun = objective(x).", "quantifier": "every run that returns", "why_tests_cant": "the relation holds along all chains", "anchors": ["stochopy/sample/mcmc/_mcmc.py:sample"]}
{"id": "C35", "title": "MCMC with perc fails unless the block size divides the dimension", "statement": "With b = max(1, int(perc*ndim)), sample(method='mcmc') raises ValueError iff b does not divide ndim and maxiter reaches the last partial block; if b divides ndim it never does.", "quantifier": "every ndim, perc, maxiter, objective, random stream", "why_tests_cant": "an iff over all dimensions", "anchors": ["stochopy/sample/mcmc/_mcmc.py:sample"]}
{"id": "C36", "title": "constraints='Reject' rejects everything", "statement": "With constraints='Reject' the samplers accept no proposal at all, feasible or not: every sample equals the first one and accept_ratio = 0; mcmc then reports fun = inf. (The documented behaviour, rejecting exactly the infeasible ones, is violated.)", "quantifier": "every objective, bounds, random stream, step size", "why_tests_cant": "a claim on every proposal of every chain", "anchors": ["stochopy/sample/_common.py:in_search_space", "stochopy/sample/mcmc/_mcmc.py:sample", "stochopy/sample/hmc/_hmc.py:sample"]}
{"id": "C37", "title": "HMC chain, result and evaluation count", "statement": "sample(method='hmc') returns maxiter samples with funall[i] = fun(xall[i]); (x, fun) is a minimum over all samples including the first; with finite differences and no constraint nfev is exactly 1 + (maxiter-1) * (2*ndim*(nleap+2) + 2), which is the number of objective calls.", "quantifier": "every objective, random stream, nleap >= 1, ndim, maxiter >= 1", "why_tests_cant": "exact count and invariant for all runs", "anchors": ["stochopy/sample/hmc/_hmc.py:sample,count,numerical_gradient"]}
{"id": "C38", "title": "HMC with a user-supplied gradient cannot run", "statement": "sample(method='hmc', jac=g) with a callable g and maxiter >= 2 raises RecursionError in the first iteration, because the wrapper calls itself; g is never called.", "quantifier": "every gradient, objective, random stream", "why_tests_cant": "no test passes jac; the absence of any successful run is universal", "anchors": ["stochopy/sample/hmc/_hmc.py:sample"]}
{"id": "C39", "title": "The HMC integrator is time-reversible", "statement": "In exact arithmetic the leap-frog trajectory is reversible: integrating from the end point with negated momentum returns to the starting point with negated momentum, for any gradient function; it performs nleap + 1 position steps (nleap + 2 gradient evaluations).", "quantifier": "every gradient function, step-size vector, position, momentum, nleap", "why_tests_cant": "identity over all functions", "anchors": ["stochopy/sample/hmc/_hmc.py:sample"]}
{"id": "C40", "title": "The numerical gradient is the central difference", "statement": "In exact arithmetic numerical_gradient returns in component i the central difference (f(x+h e_i) - f(x-h e_i))/(2h), evaluates the objective 2*ndim times, and is exact for polynomials of degree two per coordinate; in binary64 the point is not always restored exactly between components (counterexample). For a differentiable objective every component is the exact partial derivative at a point less than h away from x in that coordinate, so it is off by at most K h where the partial derivative is K-Lipschitz, and by at most L h^2/6 where the second one is L-Lipschitz; a cube attains the last bound.", "quantifier": "every objective, point, step h <> 0", "why_tests_cant": "identity over all functions and points", "anchors": ["stochopy/sample/hmc/_hmc.py:numerical_gradient"]}
{"id": "C41", "title": "Benchmark functions have the advertised lower bounds", "statement": "In exact arithmetic sphere, quartic, rastrigin, rosenbrock and griewank are >= 0 everywhere and 0 at their documented minimiser (0, or 1 for rosenbrock), with equality only there for sphere/quartic/rosenbrock(ndim>=2)/rastrigin/griewank; ackley has its only minimum at 0 (where it is e_literal - e, negative and above -2e-16); styblinski_tang is >= -2e-4*ndim and takes negative values. In binary64 rounded arithmetic as well, sphere, quartic, rosenbrock, griewank and rastrigin never return a number below 0, whatever floats the point has.", "quantifier": "every dimension and every real vector", "why_tests_cant": "inequalities over all of R^n", "anchors": ["stochopy/factory/benchmark.py"]}
{"id": "C42", "title": "Result objects are dictionaries with attribute access", "statement": "For results, attribute write/delete and item write/delete are the same operation, and so are attribute read and item read for every name that is not an attribute of the dict class (res.keys is always the method, also after res.keys = 5); reading a missing attribute raises AttributeError, a missing item KeyError, and deleting a missing one raises KeyError in both forms; dir() lists exactly the keys, each once; repr shows each key other than xall/funall exactly once with its value, in sorted order, the colons in one common column.", "quantifier": "every sequence of updates, every key", "why_tests_cant": "algebraic laws over all operation sequences", "anchors": ["stochopy/_common.py:BaseResult"]}
{"id": "C43", "title": "minimize/sample dispatch", "statement": "minimize(fun, bounds, x0, args, method, options, callback) is the direct call of the solver registered under method with the options as keyword arguments; an unknown method is KeyError; an unknown or duplicated option is TypeError; options None and {} are the same; none of these errors calls the objective.", "quantifier": "every method string, every option dictionary", "why_tests_cant": "infinitely many strings/dictionaries", "anchors": ["stochopy/optimize/_helpers.py:minimize,register", "stochopy/sample/_helpers.py:sample,register"]}
{"id": "C44", "title": "A seed makes the run reproducible", "statement": "With seed given, two runs with the same arguments produce the same result, the same evaluations and the same callbacks whatever the state of the global random generator was before the call.", "quantifier": "every pair of prior generator states, every argument record, every solver and sampler", "why_tests_cant": "hyperproperty over pairs of runs", "anchors": ["stochopy/optimize/de/_de.py:minimize", "stochopy/optimize/cpso/_cpso.py:minimize", "stochopy/optimize/na/_na.py:minimize", "stochopy/optimize/cmaes/_cmaes.py:minimize", "stochopy/optimize/vdcma/_vdcma.py:minimize", "stochopy/sample/mcmc/_mcmc.py:sample", "stochopy/sample/hmc/_hmc.py:sample"]}
{"id": "C45", "title": "Direct na() call without a callback", "statement": "Calling stochopy.optimize.na(fun, bounds) without an explicit callback always raises ValueError (its default callback=True is not callable), while minimize(method='na') works.", "quantifier": "every other argument", "why_tests_cant": "default-argument behaviour on all inputs", "anchors": ["stochopy/optimize/na/_na.py:minimize"]}
{"id": "C46", "title": "MPI ranks stay in lock-step for DE", "statement": "When a de run is executed by several MPI ranks, all ranks leave the loop in the same iteration with the same status and the same result, even when their random generators are in different states, since candidates are broadcast from rank 0.", "quantifier": "every number of ranks, all generator states of the ranks, every objective", "why_tests_cant": "deadlock-freedom over all rank states", "anchors": ["stochopy/optimize/_common.py:optimizer", "stochopy/optimize/de/_de.py:de,de_sync"]}
{"id": "C47", "title": "CMA-ES and VD-CMA do not read uninitialised memory", "statement": "cmaes and vdcma allocate the previous mean with np.empty; with constraints='Penalize' the first iteration uses it only where the mean lies outside the box, so without constraints the whole run, and with Penalize every run whose first mean is inside the box, is independent of the contents of that memory.", "quantifier": "every content of the uninitialised array, every objective and random stream", "why_tests_cant": "what np.empty returns depends on the allocator and cannot be controlled by a test", "anchors": ["stochopy/optimize/cmaes/_cmaes.py:cmaes", "stochopy/optimize/vdcma/_vdcma.py:vdcma", "stochopy/optimize/cmaes/_constraints.py:Penalize"]}
{"id": "C48", "title": "Samplers always accept a proposal with NaN value", "statement": "A proposal whose value is NaN is accepted by mcmc (the test is log(u) < min(0, -NaN) with Python's min, which returns 0), and so is every proposal made while the current value is NaN.", "quantifier": "every chain, every uniform draw, every position of the NaN", "why_tests_cant": "no test uses NaN-valued targets", "anchors": ["stochopy/sample/mcmc/_mcmc.py:sample"]}
{"id": "C49", "title": "Samplers terminate", "statement": "hmc never iterates for ever: with valid arguments and no user gradient the only way a call fails is an exception of the objective or callback. mcmc terminates whenever ndim >= 1; with empty bounds and maxiter >= 2 its outer loop makes no progress and never ends.", "quantifier": "every objective, random stream, option record", "why_tests_cant": "termination is a statement on all runs", "anchors": ["stochopy/sample/mcmc/_mcmc.py:sample", "stochopy/sample/hmc/_hmc.py:sample"]}
{"id": "C50", "title": "Sampler callbacks", "statement": "If a callback is given to mcmc/hmc it is called exactly once per iteration, in order, with the sample of that iteration and the current best; without a callback none is made, and nothing else than evaluations of the objective happens, also in a run that raises.", "quantifier": "every run that returns; without a callback also every run that raises", "why_tests_cant": "all iterations of all runs", "anchors": ["stochopy/sample/mcmc/_mcmc.py:sample", "stochopy/sample/hmc/_hmc.py:sample"]}
{"id": "C51", "title": "A stepsize array is rescaled in place", "statement": "mcmc and hmc multiply a stepsize array given by the caller in place by the half width of the bounds, once per call; calling sample twice with the same array therefore uses different step sizes.", "quantifier": "every stepsize array, bounds and outcome", "why_tests_cant": "aliasing effects on the caller's data are not observed by tests", "anchors": ["stochopy/sample/mcmc/_mcmc.py:sample", "stochopy/sample/hmc/_hmc.py:sample"]}
{"id": "C52", "title": "Every evaluated point has the dimension of the problem", "statement": "Every vector given to the objective by de, cpso, pso, na, cmaes, vdcma, mcmc and hmc (the points of its numerical gradient included) has len(bounds) coordinates, and the population given to a callback is a popsize by len(bounds) array.", "quantifier": "every objective, random stream, backend, option record; also runs that raise", "why_tests_cant": "all points of all runs, including those of the repair and restart branches", "anchors": ["stochopy/optimize/de/_de.py:minimize", "stochopy/optimize/cpso/_cpso.py:minimize", "stochopy/optimize/na/_na.py:minimize", "stochopy/optimize/cmaes/_cmaes.py:minimize", "stochopy/optimize/vdcma/_vdcma.py:minimize", "stochopy/sample/mcmc/_mcmc.py:sample", "stochopy/sample/hmc/_hmc.py:sample"]}
{"id": "C53", "title": "A given x0 is the initial population", "statement": "If x0 is given to de, cpso, pso or na, the first popsize points evaluated are exactly its rows in order (for na: after normalisation and back, which is exact for points inside non-degenerate bounds in exact arithmetic), also when the run raises later.", "quantifier": "every x0 array, objective, random stream, backend", "why_tests_cant": "every array and every failing run", "anchors": ["stochopy/optimize/de/_de.py:de", "stochopy/optimize/cpso/_cpso.py:cpso", "stochopy/optimize/na/_na.py:na"]}
{"id": "C54", "title": "cmaes and vdcma evaluate only finite points (exact arithmetic)", "statement": "With finite bounds (lower < upper), a finite x0 or none, sigma and muperc accepted by the checks, at least one parent, a learning rate sum c1+cmu below 1 and finite normal draws, every vector given to the objective by cmaes, every vector given to the callback and the returned x consists of len(bounds) finite numbers, whatever values the objective returns (also inf and nan). The same holds for vdcma (without the condition on the learning rates) in every run whose mean changes in each iteration; with muperc*popsize < 2 and normal draws that are not zero every run is one of these.", "quantifier": "every objective, random stream, callback, constraints option; also runs that raise", "why_tests_cant": "divisions by the step size and square roots could produce nan after any number of iterations", "anchors": ["stochopy/optimize/cmaes/_cmaes.py:cmaes", "stochopy/optimize/vdcma/_vdcma.py:vdcma"]}
{"id": "C55", "title": "Every new model of na lies in the Voronoi cell of its parent", "statement": "When all bounds satisfy lower < upper, the objective is evaluated by na in generations of popsize models; the first is the initial population, and in every later generation the i-th model is at least as close (Euclidean distance after scaling the box to the unit cube) to its parent as to every other model evaluated in earlier generations. The parents are the nr best models so far, nr = max(1, floor(nrperc * popsize)), taken in turn. All models lie in the box. With a fixed variable (lower = upper) this fails.", "quantifier": "every objective, random stream, box, population size, number of iterations (exact arithmetic, backend not mpi)", "why_tests_cant": "an inequality against every earlier model for all uniform draws; the distance updates along the axes are incremental, and the failure with a fixed variable needs special draws", "anchors": ["stochopy/optimize/na/_na.py:mutation", "stochopy/optimize/na/_na.py:na"]}
{"id": "C56", "title": "A valid call raises only the user's exceptions", "statement": "For de, cpso, pso and na called with valid arguments (array x0 or none, enough individuals for the de strategy, finite bounds for de with constraints and for cpso with competitivity, and for return_all: maxiter >= 2 and verbosity <= 1) the only exceptions that leave the call are those raised by the objective or the callback, and for na OverflowError when the arithmetic makes the limits of a cell infinite, which cannot happen in exact arithmetic with a finite x0; if none is raised, the call returns a result. With return_all and maxiter < 2 no call returns, although the same call without return_all does.", "quantifier": "every objective, callback, random stream, scheduler, backend; every valid argument combination", "why_tests_cant": "absence of IndexError, ValueError, ZeroDivisionError on all paths, including the restart of cpso and the recording", "anchors": ["stochopy/optimize/de/_de.py:de", "stochopy/optimize/cpso/_cpso.py:cpso", "stochopy/optimize/cpso/_cpso.py:restart", "stochopy/optimize/na/_na.py:na", "stochopy/optimize/_common.py:selection_sync"]}
{"id": "C57", "title": "Particles move by the velocity equation", "statement": "The evaluations of a run of pso or cpso that returns are a flight: the initial swarm is at rest; every later evaluated position is the particle's last position plus its new velocity inertia*v + cognitivity*r1*(pbest-x) + sociability*r2*(gbest-x), r1 and r2 being random draws for every coordinate; with constraints='Shrink' the velocity is multiplied by 1 if the move stays within the bounds and otherwise by the smallest factor (bound-x)/v of the violated coordinates. In deferred mode all particles move from the swarm of the previous generation and a memory is replaced by a strictly better value; in immediate mode particles move one after the other and a memory is replaced by a value not worse. Between generations nothing changes except, with competitivity, the restart of the worst particles, which happens exactly when the swarm radius is below the threshold and the computed number is positive. The result is the best remembered position.", "quantifier": "every objective, callback, random stream, population, number of iterations, argument values; every number type (binary64 and exact)", "why_tests_cant": "a relation on every evaluation of every run, between random draws that the caller never sees", "anchors": ["stochopy/optimize/cpso/_cpso.py:mutation", "stochopy/optimize/cpso/_cpso.py:pso_sync", "stochopy/optimize/cpso/_cpso.py:pso_async", "stochopy/optimize/cpso/_cpso.py:restart", "stochopy/optimize/cpso/_constraints.py:Shrink"]}
{"id": "C58", "title": "CMA-ES samples and adapts by its published equations", "statement": "The evaluations of a run of cmaes that returns come from one search distribution per generation. It starts with mean = standardised x0 (or a uniform draw in [-1,1] per coordinate), step size sigma, identity covariance and zero paths. Every generation samples popsize points mean + sigma*B*(D*z) with z normal draws, evaluates them unstandardised (clipped to the box with constraints='Penalize'), and ranks them by value (plus the weighted squared distance to the box with 'Penalize'). The next mean is the sum of the mu = int(muperc*popsize) best sampled points with weights (ln(mu+1/2)-ln k)/sum; the two evolution paths, the covariance matrix, the step size sigma*exp(cs/damps*(|ps|/chi-1)) and, when more than popsize/(c1+cmu)/ndim/10 evaluations have passed, the eigen-decomposition are then updated by the stated formulas with the stated constants; nothing else changes. With 'Penalize' the weights of the distance are determined too: they start at 0; every generation records the spread (75th minus 25th percentile of the values, over ndim, the mean variance and sigma^2; the least positive recorded one if it is zero), keeping about 20+3*ndim/popsize of them from the first non-zero spread on; while they are being set, and the mean is outside the box, all weights become 2.0002 times the median recorded spread, and setting ends with the first such generation after the second; the weight of a variable is multiplied by 1.2^min(1, mueff/10/ndim) when the mean is more than 3*max(1,sqrt(ndim/mueff)) standard deviations above the upper bound and last moved upwards (the code never raises the weight of a variable below its lower bound). The result is the best point of the last generation.", "quantifier": "every objective, callback, random stream, eigen-solver, population size, number of iterations, argument values; every number type (binary64 and exact)", "why_tests_cant": "a relation between unobservable random draws and every evaluation of every run; the internal distribution is not exposed", "anchors": ["stochopy/optimize/cmaes/_cmaes.py:cmaes", "stochopy/optimize/cmaes/_constraints.py:Penalize"]}
{"id": "C59", "title": "VD-CMA samples and adapts by its published equations", "statement": "The evaluations of a run of vdcma that returns come from one search distribution per generation: mean, step size and covariance diag(D)(I+vv^T)diag(D). It starts with the standardised x0 (or a uniform draw), step size sigma, D = 1 and v a normal draw divided by sqrt(ndim). Every generation samples popsize displacements D*(z + (sqrt(1+|v|^2)-1)*(z.v/|v|)*v/|v|); after the first generation the first two are replaced by plus and minus the last move of the mean, rescaled to the length of a normal draw in the metric of the distribution. Points are evaluated unstandardised (clipped to the box with constraints='Penalize') and ranked. The mean moves by the weighted difference of the mu best; the step size follows the smoothed rank difference of the two injected points; the evolution path grows unless that success is 0.5 or more; v and D follow the natural gradient of the accumulated statistics, shortened so that neither changes by more than 70 percent; nothing else changes. With 'Penalize' the weights of the distance are determined too: they start at 0; every generation records the spread (75th minus 25th percentile of the values, over ndim, the mean variance and sigma^2; the least positive recorded one if it is zero), keeping about 20+3*ndim/popsize of them from the first non-zero spread on; while they are being set, and the mean is outside the box, all weights become 2.0002 times the median recorded spread, and setting ends with the first such generation after the second; the weight of a variable is multiplied by 1.2^min(1, mueff/10/ndim) when the mean is more than 3*max(1,sqrt(ndim/mueff)) standard deviations above the upper bound and last moved upwards (the code never raises the weight of a variable below its lower bound). The result is the best point of the last generation.", "quantifier": "every objective, callback, random stream, population size, number of iterations, argument values; every number type (binary64 and exact)", "why_tests_cant": "a relation between unobservable random draws and every evaluation of every run; the internal distribution is not exposed", "anchors": ["stochopy/optimize/vdcma/_vdcma.py:vdcma", "stochopy/optimize/vdcma/_vdcma.py:pvec_and_qvec", "stochopy/optimize/vdcma/_vdcma.py:ngv_ngd", "stochopy/optimize/cmaes/_constraints.py:Penalize"]}
{"id": "C60", "title": "Optimizers see the objective only through the order of its values", "statement": "Replace the objective by g(fun(x)), where g is increasing on the values that fun takes, and ftol by g(ftol). Then a call of de, pso, cpso or na with the same seed evaluates exactly the same points in the same order, calls the callback with the same points, and returns the same x, nit, nfev, status and message (and xall), with fun and funall transformed by g; if one raises, so does the other, with the same exception. For cmaes and vdcma without constraints this holds until one of the two runs stops (their stopping tests compare differences of values); when both return after the same number of iterations x, fun, nfev and the histories correspond.", "quantifier": "every objective, increasing transformation, callback, random stream, population size, number of iterations and argument values; every number type", "why_tests_cant": "a relation between two whole runs, for every objective and every increasing transformation; a sample of pairs of runs shows nothing about the others, and rounding hides small dependences on the magnitude", "anchors": ["stochopy/optimize/_common.py:selection_sync", "stochopy/optimize/_common.py:selection_async", "stochopy/optimize/de/_de.py:de", "stochopy/optimize/cpso/_cpso.py:cpso", "stochopy/optimize/na/_na.py:na", "stochopy/optimize/cmaes/_cmaes.py:cmaes", "stochopy/optimize/vdcma/_vdcma.py:vdcma"]}
{"id": "C61", "title": "Samplers are blind to a constant added to the objective", "statement": "Replace the objective by fun(x) + c. Then mcmc and hmc (with finite-difference gradient or without a usable one) with the same seed evaluate exactly the same points in the same order, call the callback with the same samples, and return the same x, nit, accept_ratio, nfev and xall, with fun and funall increased by c (fun = inf of mcmc without accepted sample stays inf); if one raises, so does the other, with the same exception.", "quantifier": "every objective, constant, callback, random stream, number of samples and argument values; every number type in which the addition is exact on the values of the objective", "why_tests_cant": "a relation between two whole random runs, for every objective and every constant; on floats rounding blurs it", "anchors": ["stochopy/sample/mcmc/_mcmc.py:sample", "stochopy/sample/hmc/_hmc.py:sample", "stochopy/sample/hmc/_hmc.py:numerical_gradient"]}
{"id": "C62", "title": "The units of the variables do not matter", "statement": "Measure every variable in another unit, x_i -> s_i*x_i + o_i with s_i > 0, converting bounds, x0 and the argument of the objective. Then de, pso, na, cmaes, vdcma and mcmc with the same seed evaluate the same points in the new units, in the same order, call the callback with the same states, and return the same fun, nit, nfev, success and the converted x and xall; if one raises, so does the other. Exceptions: a run of de or pso that ends with status 0 or 1 may report the other of the two, since xtol is a length; with competition cpso is only invariant under shifts of the origin; na needs lower < upper and records its first generation in [-1, 1] coordinates; hmc needs one common scale, applied to its finite-difference step as well.", "quantifier": "every objective, callback, random stream, bounds, scales, offsets, population, number of iterations and argument values; exact arithmetic", "why_tests_cant": "a relation between two whole random runs for every choice of units; rounding hides it in floating point, and a forgotten scale factor only shows up as a slightly worse search", "anchors": ["stochopy/optimize/de/_de.py:de", "stochopy/optimize/cpso/_cpso.py:cpso", "stochopy/optimize/na/_na.py:na", "stochopy/optimize/cmaes/_cmaes.py:cmaes", "stochopy/optimize/vdcma/_vdcma.py:vdcma", "stochopy/optimize/_common.py:lhs", "stochopy/sample/mcmc/_mcmc.py:sample", "stochopy/sample/hmc/_hmc.py:sample"]}
{"id": "C63", "title": "maxiter, xtol and ftol only decide when a run stops", "statement": "Repeat a call of de, cpso, pso, na, cmaes or vdcma with the same seed and other values of maxiter, xtol and ftol. Until one of the two runs stops they do the same: the objective evaluations and callbacks of the one are the beginning of those of the other, so are xall and funall, and if both stop in the same iteration, they return the same x, fun, nfev and record. A larger maxiter changes only runs that ended with status -1, and these go on where they stopped; a smaller ftol changes only runs that ended with status 0 or 1. mcmc and hmc with a larger maxiter return the same samples followed by new ones. (cpso with competition is excluded for changes of maxiter: its restarts depend on it.)", "quantifier": "every objective, callback, random stream, backend, bounds, arguments and pair of limits; any arithmetic with ordered comparisons (ftol part), any arithmetic at all (rest)", "why_tests_cant": "a relation between two whole runs for all pairs of limits; a schedule that depends on maxiter or tolerance leaking into the update would still give plausible results", "anchors": ["stochopy/optimize/_common.py:selection_sync", "stochopy/optimize/_common.py:selection_async", "stochopy/optimize/cmaes/_cmaes.py:converge", "stochopy/optimize/de/_de.py:de", "stochopy/optimize/cpso/_cpso.py:cpso", "stochopy/optimize/na/_na.py:na", "stochopy/optimize/vdcma/_vdcma.py:vdcma", "stochopy/sample/mcmc/_mcmc.py:sample", "stochopy/sample/hmc/_hmc.py:sample"]}
{"id": "C64", "title": "xtol never stops a run", "statement": "Changing xtol alone in a call of de, cpso, pso, na, cmaes or vdcma with the same seed changes neither the evaluated points nor the callbacks, nor x, fun, nfev, nit or the record, nor any exception. The only effect it can have is that a run which stopped because fun <= ftol reports status 0 instead of 1 or 1 instead of 0.", "quantifier": "every objective, callback, random stream, backend, bounds, arguments and pair of values of xtol, including nan and infinities; for cmaes and vdcma any arithmetic with ordered comparisons", "why_tests_cant": "a statement about the absence of an effect in all runs", "anchors": ["stochopy/optimize/_common.py:selection_sync", "stochopy/optimize/_common.py:selection_async", "stochopy/optimize/cmaes/_cmaes.py:converge"]}
{"id": "C65", "title": "A valid call of cmaes, vdcma, mcmc or hmc raises only what the user's code, eigh or a named defect raises", "statement": "Once the arguments of a call have passed the documented checks, the only exceptions that leave minimize with cmaes or vdcma are those the objective or the callback raised, LinAlgError when numpy.linalg.eigh fails (cmaes only), and ValueError when constraints is 'Penalize'; the last cannot happen in exact arithmetic with finite objective values (vdcma: if the mean changes in each iteration). For sample with hmc they are the user's exceptions and RecursionError when jac is callable; with mcmc the user's exceptions and ValueError when the block size does not divide the number of variables and the chain is long enough to reach the last block, and then always. Otherwise the call returns a result.", "quantifier": "every objective, callback, generator, backend, arithmetic, bounds and admissible arguments; cmaes and vdcma with at least one variable, maxiter >= 1 and verbosity at most 1 if return_all, vdcma with popsize >= 2", "why_tests_cant": "a test shows that particular calls return; this excludes every other exception in all runs, including those with non-finite values or a failing eigendecomposition", "anchors": ["stochopy/optimize/cmaes/_cmaes.py:cmaes", "stochopy/optimize/cmaes/_constraints.py:Penalize", "stochopy/optimize/vdcma/_vdcma.py:vdcma", "stochopy/sample/mcmc/_mcmc.py:sample", "stochopy/sample/hmc/_hmc.py:sample"]}
{"id": "C66", "title": "return_all, verbosity and the callback only watch a run", "statement": "Two calls of an optimizer or sampler that differ only in return_all, verbosity and callback, made in the same state of the random generator, evaluate the same points in the same order, leave the caller's array in the same state and, when both return, report the same x, fun, status, message, success, nfev, nit (accept_ratio for the samplers). A setting never rescues a run that fails without it. A run that returns without history and callback can fail with them only by an exception of the callback, by the ValueError, IndexError or OverflowError of the history arrays, or by the ValueError for a callback that is not callable; the evaluations made until then are the first ones of the other run.", "quantifier": "all eight entry points, every objective, every callback that does not touch the generator or what the objective reads, random stream, backend, arguments, return_all, verbosity; any arithmetic, binary64 included", "why_tests_cant": "a statement about the absence of an effect for every combination of settings and every callback", "anchors": ["stochopy/optimize/de/_de.py:de", "stochopy/optimize/cpso/_cpso.py:cpso", "stochopy/optimize/na/_na.py:na", "stochopy/optimize/cmaes/_cmaes.py:cmaes", "stochopy/optimize/vdcma/_vdcma.py:vdcma", "stochopy/sample/mcmc/_mcmc.py:sample", "stochopy/sample/hmc/_hmc.py:sample"]}
{"id": "C67", "title": "Seeded MPI ranks of every optimizer stay in lock-step", "statement": "Let two MPI ranks make the same call of de, cpso, pso, na, cmaes or vdcma with backend='mpi', either with a seed or with their random generators in the same state. If the collectives deliver on the second rank what they deliver on rank 0, both ranks issue the same sequence of collective calls (no deadlock), call the callback with the same arguments in the same order, and end in the same way: with the same result or the same exception, whatever their objectives and callbacks compute locally.", "quantifier": "all six optimizers, every argument combination, every pair of objectives and callbacks (that return and do not touch the generator), every random stream, number of ranks and split of the work; any arithmetic, binary64 included", "why_tests_cant": "needs several processes and every interleaving of local results; a rank that diverges shows up as a hang, not as a wrong value", "anchors": ["stochopy/optimize/_common.py:optimizer", "stochopy/optimize/cpso/_cpso.py:cpso", "stochopy/optimize/na/_na.py:na", "stochopy/optimize/cmaes/_cmaes.py:cmaes", "stochopy/optimize/vdcma/_vdcma.py:vdcma"]}
{"id": "C68", "title": "The random numbers a call uses do not depend on the objective", "statement": "A call that returns has drawn from numpy's generator a sequence determined by its arguments and nit alone: for de, pso, cpso without competition, na, cmaes and vdcma the draws of the initialisation followed by a fixed block per generation, for mcmc and hmc maxiter-1 fixed blocks. The generator is left in the state after exactly these draws. Hence two calls with the same arguments and generator but different objectives and callbacks that stop after the same number of iterations leave the generator in the same state (common random numbers). With competition, cpso may add, after each iteration, the coordinates of the restarted particles; their number is zero or given by the restart formula.", "quantifier": "all eight entry points, every objective and callback that does not use the generator, every generator, backend and arguments; any arithmetic, binary64 included", "why_tests_cant": "a statement about the internal state of the generator for every objective; tests compare a few outputs", "anchors": ["stochopy/optimize/_common.py:lhs", "stochopy/optimize/de/_de.py:de,de_sync,de_async", "stochopy/optimize/de/_constraints.py:Random", "stochopy/optimize/cpso/_cpso.py:cpso,restart", "stochopy/optimize/na/_na.py:na,mutation", "stochopy/optimize/cmaes/_cmaes.py:cmaes", "stochopy/optimize/vdcma/_vdcma.py:vdcma", "stochopy/sample/mcmc/_mcmc.py:sample", "stochopy/sample/hmc/_hmc.py:sample"]}
{"id": "C69", "title": "A pso run can be replayed from its evaluations", "statement": "In exact arithmetic, with constraints='Shrink', one worker and an initial swarm within finite bounds: let popsize be p. For every n >= p the n-th evaluated point is the last point within the bounds on the segment from x to x+u, where x is evaluation n-p, u = inertia*v + cognitivity*r1*(b-x) + sociability*r2*(g-x), v is the difference of the evaluations n-p and n-2p (zero in the second generation), b the best evaluation of this particle and g the best of all (so far in immediate mode, up to the previous generation in deferred mode), r1 and r2 random draws. The result is a best evaluation. A point strictly within the bounds is reached by a full move; a particle on a bound whose velocity points outwards does not move at all, in no coordinate, and has velocity zero afterwards. So a swarm can come to rest on a wall where the objective still decreases.", "quantifier": "every objective (also inf and nan values), callback, random stream, dimension, popsize, number of iterations", "why_tests_cant": "relates every evaluation of every run to the earlier ones; a wrong factor or memory still gives feasible, converging runs", "anchors": ["stochopy/optimize/cpso/_cpso.py:mutation,pso_sync,pso_async", "stochopy/optimize/cpso/_constraints.py:Shrink", "stochopy/optimize/pso/_pso.py:minimize"]}
{"id": "C70", "title": "cmaes and vdcma stop in the first generation that gives a reason, and status names the first reason", "statement": "A run of cmaes or vdcma that returns stops after the first generation that meets one of the conditions, and status is the first of these that it meets, in this order: -1 the iteration number reaches maxiter; 0 the mean moved by at most xtol and the best value is below ftol; 1 the best value is at most ftol; -2 (cmaes) all entries of 0.1*sigma*D[i]*B[:,i] are below 1e-10 in absolute value, i the iteration number modulo ndim; -3 some 0.2*sigma*sqrt(C[j,j]) is below 1e-10; -4 (cmaes) max D > 1e7*min D; -5 the number of generations is at least 10+30*ndim/popsize and the best values of the last so many generations (and 0) differ by less than 1e-10; -6 some sigma*sqrt(C[j,j]) exceeds 1000 times the given sigma; -7 after more than two generations, the values of this generation, the best values of all generations and, before maxiter, 0 differ by less than 1e-12; -8 all sigma*|pc[j]| and sigma*max sqrt(C[j,j]) are below 1e-11 times the given sigma. Distribution, path and step size are those of the evolution equations (C58, C59); vdcma uses the variances from before the update. In particular no generation before the last has a best value of at most ftol, status is -1 exactly if nit = maxiter, and vdcma never reports -2 or -4.", "quantifier": "every objective (also inf and nan values), callback, random stream, dimension, popsize, arithmetic", "why_tests_cant": "most conditions are met only after long runs on special objectives; a wrong constant or order shows only there", "anchors": ["stochopy/optimize/cmaes/_cmaes.py:converge,cmaes", "stochopy/optimize/vdcma/_vdcma.py:vdcma"]}
{"id": "C71", "title": "hmc integrates by leap-frog, and on a quadratic objective its energy error is known exactly", "statement": "Every step of hmc (jac=None) draws d normal numbers p0 and follows n+1 = nleap+1 drifts q += s*p from the current sample, with momentum changes 0.5*s*g at both ends and s*g between, where g are the central differences 0.5*(f(x+h e_i)-f(x-h e_i))/h; then it evaluates the current sample and the end y, and accepts y iff ln(u) < min(0, U0-U+0.5*sum(p0^2)-0.5*sum(p^2)). These are all the evaluations of the run, in this order, and return_all gives the samples and their values. In exact arithmetic on f(x) = c + sum a_i/2 (x_i-m_i)^2 the quantity p_i^2 + a_i(1-s_i^2 a_i/4)(x_i-m_i)^2 is the same at both ends for every i, the end is the rotation om(y_i-m_i) = om(x_i-m_i) cos((n+1)th) + p0_i sin((n+1)th) with cos(th) = 1 - s_i^2 a_i/2, whatever finite_diff_abs_step is, and the proposal is accepted iff u < exp(sum (a_i s_i)^2/8 ((x_i-m_i)^2-(y_i-m_i)^2)); so a proposal no farther from the centre in that norm is always accepted, and with s_i^2 a_i < 4 no sample is farther than (x_i-m_i)^2 + p0_i^2/(a_i(1-s_i^2 a_i/4)) allows.", "quantifier": "all objectives, bounds, x0, stepsize (scalar or per coordinate), nleap, maxiter, finite_diff_abs_step and random streams; the second part for all curvatures a, centres m, offsets c in exact arithmetic", "why_tests_cant": "the acceptance rule involves an unobservable momentum and uniform number; a wrong half step or kinetic factor still gives plausible samples, and the exact energy error holds for every trajectory length", "anchors": ["stochopy/sample/hmc/_hmc.py:sample", "stochopy/sample/hmc/_hmc.py:numerical_gradient"]}
{"id": "C72", "title": "na draws every coordinate uniformly from the whole section of the parent's Voronoi cell", "statement": "Scale the box to the unit cube. A new model y of na is reached from its parent k (one of the nr best models so far, taken in turn) by changing one coordinate after the other in order: coordinate j becomes lo + (hi-lo)*r with a random r in [0,1), where [lo,hi] contains k_j and every point (y_0..y_{j-1}, t, k_{j+1}..) with lo <= t <= hi lies in the cube and is at least as close to k as to any other model evaluated in earlier generations; and these are all such t, unless the point reached so far is on the border of the cell. On the first axis the interval is always the whole section. Hence y is in the cell of k.", "quantifier": "all bounds with lower < upper, popsize, nrperc, maxiter, objectives, callbacks, initial populations within the bounds and random streams (exact arithmetic)", "why_tests_cant": "a walk confined to a part of the cell still returns feasible points in the right cell; only the set of reachable points is wrong", "anchors": ["stochopy/optimize/na/_na.py:mutation"]}
{"id": "C73", "title": "The initial population limits what de, pso and cpso can search", "statement": "(a) If the first popsize evaluated points have the same j-th coordinate c, every evaluated point and the result have it: de (constraints=None, or 'Random' and c within the bounds), pso and cpso without competition (constraints=None, or 'Shrink' and a start within finite bounds). (b) de, constraints=None, integer mutation: a coordinate that starts on a grid c + h*Z stays on it. (c) de, constraints=None, mutation=0: every coordinate of every evaluated point is the one of an initial individual. (d) de, constraints=None, recombination=1: every hyperplane that contains the initial population contains every evaluated point and the result, so with popsize <= ndim de never leaves a proper affine subspace. (e) If the first popsize evaluated points are all one point, de and cpso without competition (constraints=None) evaluate nothing else and return it.", "quantifier": "all objectives, callbacks, bounds, sizes, parameters, strategies, updating modes, workers, random streams and initial populations (exact arithmetic)", "why_tests_cant": "a run with a generic initial population shows nothing; the claims exclude whole regions of the search space for every random stream and every number of generations", "anchors": ["stochopy/optimize/de/_strategy.py:1-38", "stochopy/optimize/de/_de.py:mutation", "stochopy/optimize/cpso/_cpso.py:mutation", "stochopy/optimize/cpso/_constraints.py"]}
{"id": "C74", "title": "cmaes and vdcma cannot shrink their steps faster than a fixed rate, so the statuses for small steps need a minimum number of generations", "statement": "cmaes, mu = int(muperc * popsize) >= 1 parents, ndim = d: with r = exp(-cs/damps) * sqrt(1 - c1 - cmu) (the strategy's constants for d and mu), status -3 implies 0.2 * sigma * r^nit < 1e-10 and status -8 implies r^nit < 1e-11. If 3 mu <= (d+1)^2, then status -8 implies (5 mu + 2) nit > 23 (d + 9), and status -3 with sigma >= 0.1 implies (5 mu + 2) nit > 17 (d + 9). vdcma: the step size is always a number and changes by at most a factor exp(1/sqrt(d)) per generation, not at all in the first.", "quantifier": "all objectives, callbacks, bounds, sizes, seeds, random streams, eigenvalue routines and constraints (exact arithmetic)", "why_tests_cant": "a run shows one trajectory of step sizes; the bound holds for every objective and every stream of normal numbers, also when values or the paths are infinite or NaN", "anchors": ["stochopy/optimize/cmaes/_cmaes.py:185-205", "stochopy/optimize/cmaes/_cmaes.py:280-320", "stochopy/optimize/cmaes/_cmaes.py:converge", "stochopy/optimize/vdcma/_vdcma.py:295-320"]}
{"id": "C75", "title": "An infinite objective value is a wall for mcmc but a hole for hmc", "statement": "mcmc (constraints other than 'Reject', no NaN value seen): the samples with value +inf are exactly the first m of the chain for some m; while there, every proposal is accepted; once a sample has a value below +inf, every proposal of value +inf is refused, so the chain never returns. hmc with the finite-difference gradient: if two evaluations of the same central difference are both +inf, or one is NaN, the step is accepted whatever its value; and unless it was the last gradient of the step, that coordinate of the sample is NaN from then on to the end of the chain. The step is also accepted when the values at its two ends are both +inf or one is NaN.", "quantifier": "all objectives, start points, step sizes, numbers of leap-frog steps, random streams, lengths of the chain", "why_tests_cant": "no test has an infinite value; the claim is about every proposal of every chain", "anchors": ["stochopy/sample/mcmc/_mcmc.py:120-150", "stochopy/sample/hmc/_hmc.py:144-180", "stochopy/sample/hmc/_hmc.py:numerical_gradient"]}
{"id": "C76", "title": "The work of an MPI run is split evenly and nfev counts it once", "statement": "With backend='mpi' every optimizer that returns on rank r of s processes has done exactly nit rounds: it received popsize points, evaluated once and in order the points whose index is r modulo s and no others, received popsize values and then called the callback (when there is one). So each point is evaluated by exactly one rank, the ranks' shares differ by at most one point per iteration, the rank's number of calls is nit * (popsize // s + (1 if r < popsize % s else 0)), and nfev is the number of calls over all the ranks together. de, pso, cpso and na return the least of all the values received, cmaes and vdcma without constraints the least of the last values received.", "quantifier": "all objectives, arguments, numbers of processes, ranks, random streams and contents of the collectives", "why_tests_cant": "tests run one process; the claim is about each of any number of processes", "anchors": ["stochopy/optimize/_common.py:50-72", "stochopy/optimize/_common.py:92-102"]}
{"id": "C77", "title": "One NaN value can make a penalized run return NaN", "statement": "In cmaes and vdcma with constraints='Penalize', let the objective return NaN at least once in generation k, and let the distribution mean lie outside the box at the start of generation n, k <= n <= k+19, n > 2, for the first time after the second generation. Then in generation n and in all later generations of the run every penalized value of every individual is NaN, however many numbers the objective returns: the result has fun = NaN when nit >= n, and every callback from iteration n on is given fun = NaN.", "quantifier": "all objectives, boxes, starting points, population sizes, random streams, and generations k, n of every run", "why_tests_cant": "needs a NaN from the objective followed, up to nineteen generations later, by a mean that leaves the box; no test has either, and the claim is about all later generations", "anchors": ["stochopy/optimize/cmaes/_constraints.py:34-80", "stochopy/optimize/cmaes/_cmaes.py:240-259", "stochopy/optimize/vdcma/_vdcma.py:258-277"]}
{"id": "C78", "title": "How bad a refused value is does not matter", "statement": "Let b be a level that no value of the initial population exceeds. In de, pso and cpso two objectives that agree wherever the value is at most b, and are above b (larger, infinite or NaN) at the same points, give the same run: the same result or exception, the same points evaluated in the same order, the same arguments to every callback. In particular an objective may return NaN instead of any value worse than the initial population without changing the result. For cpso with competitivity the level must be at least 1e30.", "quantifier": "all objectives, levels b, boxes, strategies, updating modes, workers and backends other than MPI, random streams", "why_tests_cant": "compares a run with the runs of infinitely many other objectives; the tests use smooth objectives that return neither NaN nor infinity", "anchors": ["stochopy/optimize/_common.py:123-194", "stochopy/optimize/de/_de.py:177-397", "stochopy/optimize/cpso/_cpso.py:183-402", "stochopy/optimize/cpso/_cpso.py:405-426"]}
{"id": "C79", "title": "A run knows the objective only at the points it evaluates", "statement": "For every optimizer and sampler, two objectives that may differ only on a set D of points give the same run (result or exception, evaluations, callbacks, generator, caller's array) if the run evaluates no point of D, and otherwise the same evaluations and callbacks up to and including the first point of D. Hence the k-th evaluated point depends only on the answers to the first k-1 evaluations; and no result is a certificate: in every box with non-empty interior there is a point at which the objective may be given any value, lower than the reported minimum for instance, without the run being any different.", "quantifier": "all optimizers and samplers, pairs of objectives (also stateful ones, or ones that raise), sets D, arguments, callbacks, random streams", "why_tests_cant": "compares each run with all other objectives; a test compares a run with a known minimum of one function", "anchors": ["stochopy/optimize/_common.py:27-106", "stochopy/optimize/de/_de.py:177-397", "stochopy/optimize/cpso/_cpso.py:183-429", "stochopy/optimize/na/_na.py:135-305", "stochopy/optimize/cmaes/_cmaes.py:144-357", "stochopy/optimize/vdcma/_vdcma.py:145-423", "stochopy/sample/mcmc/_mcmc.py:11-170", "stochopy/sample/hmc/_hmc.py:11-233"]}
{"id": "C80", "title": "A deferred de run can be resumed from its population", "statement": "Take a run of de with deferred updating that ended because maxiter was reached after n generations, with an objective that depends on the point only. A call with the same arguments, x0 = the population X that the last callback saw, seed=None and maxiter=m, made in the random state that the run left behind, evaluates X again and then does exactly what the run with maxiter m+n-1 does from generation n on: the same evaluations in the same order, the same populations and best points in the callbacks (nit and nfev lower by n-1 generations), the same x, fun, status, success and message or the same exception, the same generator state afterwards. Neither immediate updating (the best point of a plateau is the last one found, a new run takes the first row) nor pso (velocities are lost) can be resumed in this way: counterexamples.", "quantifier": "all arguments of de with deferred updating, objectives without state, populations, maxiter values, random streams, joblib schedules", "why_tests_cant": "compares every interruption point of every run with the uninterrupted run; tests look at single complete runs", "anchors": ["stochopy/optimize/de/_de.py:177-397", "stochopy/optimize/_common.py:27-106", "stochopy/optimize/_common.py:123-160"]}
{"id": "C81", "title": "Two chains one after the other are one chain", "statement": "Take a call of the hmc sampler, or of the mcmc sampler with maxiter-1 a multiple of the number of blocks per sweep, with return_all=True, that returned n samples, the last one being x, with an objective that depends on the point only. A second call with the same arguments but x0=x, seed=None and maxiter=m, made in the random state that the first one left, continues it: the single call with maxiter n+m-1 returns the samples and values of the first followed by those of the second (x occurs once), its number of accepted moves is the sum of the two, for hmc nfev is the sum minus one, its evaluations are those of the first call followed by those of the second except the evaluation of x, and the generator ends in the same state. If the second call raises, the single call raises the same exception. A mcmc chain cut in the middle of a sweep over the blocks is not continued (counterexample).", "quantifier": "all arguments of the two samplers, objectives without state, chain lengths n and m, random streams, number systems", "why_tests_cant": "compares every interruption point of every chain with the uninterrupted chain; tests look at single complete chains", "anchors": ["stochopy/sample/mcmc/_mcmc.py:73-170", "stochopy/sample/hmc/_hmc.py:91-234"]}
{"id": "C82", "title": "A chain never leaves a NaN coordinate", "statement": "In the samples of a mcmc chain, or of a hmc chain with the finite-difference gradient, a coordinate that is NaN in one sample is NaN in every later sample, whatever the objective returns, whatever is accepted and whatever the constraints are. In particular, if the caller passes an x0 whose coordinate j is NaN, the call is not refused: if it returns, coordinate j is NaN in all maxiter samples and in the reported x, even if the objective does not look at it and all values are ordinary numbers.", "quantifier": "all objectives, arguments, starting points, chain lengths, random streams; binary64 with any elementary functions, and the extended reals", "why_tests_cant": "speaks about every later sample of every chain; a test starts from finite points and a finite number of chains", "anchors": ["stochopy/sample/mcmc/_mcmc.py:105-145", "stochopy/sample/hmc/_hmc.py:131-234"]}
{"id": "C83", "title": "A NaN coordinate of the best particle spreads to the whole swarm", "statement": "pso, and cpso without competition, with any constraints and both updating modes: (a) if coordinate j of evaluation n is NaN, so is coordinate j of evaluation n+popsize: a particle never gets rid of a NaN. (b) If in the initial swarm the particle with the strictly smallest value has a NaN in coordinate j (an objective may well return a number there), then every later evaluated point has a NaN in coordinate j, and so has the reported x. Constraints='Shrink' does not prevent this.", "quantifier": "all objectives, arguments, initial swarms, random streams, numbers of iterations; binary64 with any elementary functions, and the extended reals", "why_tests_cant": "about all later points of all runs; tests use objectives and starting points without NaN", "anchors": ["stochopy/optimize/cpso/_cpso.py:324-402", "stochopy/optimize/cpso/_constraints.py:7-64", "stochopy/optimize/pso/_pso.py:minimize"]}
