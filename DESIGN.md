# A Rocq model of stochopy

The code in `/repo` (stochopy, Python) is modelled function by function in Gallina; the
properties of `properties.jsonl` are theorems about that model. Nothing is executed: the tie
between code and model is the reading recorded in the comments (`file:lines`) of every
definition.

## 1. Shape of the model

* **Numbers.** The model is written once, over an abstract structure of numbers (`Num`:
  arithmetic, comparisons, `exp`/`log`/`cos`/`sqrt`, decimal literals, `inf`, `int()`), and
  instantiated three times:
  * `FNum`: IEEE binary64, Coq's primitive floats (NaN, infinities, rounding). This is what
    CPython/numpy compute with. `exp`, `log`, `cos`, `pow` are not fixed by IEEE-754: they are a
    parameter of the instance.
  * `ENum`: exact real arithmetic extended with +inf, -inf, NaN and IEEE rules for them
    ("binary64 without rounding or overflow"; the only zero is +0).
  * `RArith`: the reals, for straight-line arithmetic in which no special value occurs.

  Statements that only use comparisons (selection, best-so-far, termination, counts, ...) are
  proved for *every* instance satisfying `OrdLaws`, a list of order laws with NaN that is proved
  for `FNum` and `ENum`; they therefore hold of binary64 with NaN. Statements about values
  (feasibility, weights, reversibility) are proved in exact arithmetic and, where rounding
  breaks them, refuted on `FNum` by computation.
* **Effects.** `M A := St -> (A + Exn) * St`: state, exceptions as values, and a trace of all
  calls of user code (`EEval x y`, `ECb X state`, ...). The random generator, the objective and
  the callback, the worker schedule, the MPI collectives and the numpy routines whose result
  is not determined by their documentation (`argsort` ties, `eigh`, percentile, median, the content
  of `np.empty`) are fields of an environment `Env`; theorems quantify over all environments, with
  a contract (section 3) only where one is needed. The objective may be stateful, may draw from
  `np.random`, may raise, may return NaN; the callback may raise.
* **Loops.** `while` loops use fuel; running out of fuel is the distinguished exception
  `OutOfFuel`, proved unreachable (C01).
* **Aliasing.** The one place where the caller can observe aliasing (arrays passed as `x0` or
  `stepsize` that are modified in place) is modelled by a state field `argbuf`, the current
  content of the caller's array.

## 2. What is modelled, and what is not

| code | model |
|------|-------|
| `stochopy/_common.py` (BaseResult) | `Result.v` |
| `stochopy/optimize/_common.py` (lhs, selection_sync, selection_async, messages) and the loop all optimizers share | `Common.v` |
| `stochopy/optimize/_helpers.py`, `stochopy/sample/_helpers.py`, signatures and defaults of all solvers | `Call.v` |
| `stochopy/optimize/de/` (`_de.py`, `_strategy.py`, `_constraints.py`) | `DE.v` |
| `stochopy/optimize/cpso/`, `stochopy/optimize/pso/` | `CPSO.v` |
| `stochopy/optimize/na/` | `NA.v` |
| `stochopy/optimize/cmaes/` (`_cmaes.py`, `_constraints.py`) | `CMAES.v`, numpy's matrix operations in `Mat.v` |
| `stochopy/optimize/vdcma/` | `VDCMA.v` |
| `stochopy/sample/mcmc/`, `stochopy/sample/hmc/`, `stochopy/sample/_common.py` | `Sample.v` |
| the parallel decorator (`optimize/_common.py`: workers and backends) | `eval_pop` in `Common.v` |
| `stochopy/factory/benchmark.py` | `Bench.v` |

Not modelled, or simplified:

* dtype effects (integer arrays; `x0` and `stepsize` arrays are float64), objectives returning
  something else than a scalar, user code that mutates the arrays it receives, warnings, printing,
  memory and time, `__init__` re-exports, packaging.
* floating-point summation order inside numpy (`sum`, `dot`, `norm`): the model sums from left
  to right. No theorem on binary64 depends on it, except the concrete counterexample runs, which
  use vectors of length 1 or 2 or exact sums, and C41, where `BenchOrd.v` covers every order.
* joblib and MPI themselves: only the contract used by the code (every task is run once, results
  in order; `Allreduce(SUM)`; `Bcast`). The state of loky's child processes, real concurrency of
  stateful objectives and tasks that are still running after one failed are not modelled. Theorems
  that count evaluations are for the backends other than MPI; C76 counts the shares of MPI ranks.
* a box of no dimension: the model's `vmax [] = 0`, numpy raises ValueError for an empty maximum.
* exceptions of numpy that depend on the kind of a bad value: `int(inf)` and `uniform` with a range
  that is not finite (infinite or NaN) are OverflowError, `int(nan)` is ValueError, as in Python; in
  places where only NaN can occur (na `nr`, cmaes `mu`/`ilim`, the mcmc block) the model has
  ValueError only. A negative popsize in cmaes/vdcma is ValueError, `x0`/`stepsize` of a sampler with
  two dimensions are ValueError; `lhs` with no dimension does not raise.
* the content of `np.empty(n)` is an arbitrary but fixed function of `n` (`e_empty`).
* `Call.v`: arguments whose type is not a documented one make the model's call undefined (`None`);
  the `args` tuple is part of the objective; dictionaries are association lists.
* `x0` given as a list is a list of lists of numbers.
* convergence to a minimum, statistical quality of samples: not properties of single runs.

## 3. Contracts

Hypotheses that theorems use about the world outside the code. Each is met by a concrete
environment in the development (`Demo.v`, `PlainEnv.v`), and every theorem has a case beside it
that meets its hypotheses (names ending in `_run`, `_example`, `_hypotheses`, or files `Ex*`/`*Ex`).

| contract | content | where |
|---|---|---|
| `EnvOK` | the schedule runs every task once; collectives keep shapes; `argsort` returns a sorting permutation; `rand` in [0,1); `permutation(n)` permutes; `randint(n) < n` | `Inst.v` |
| `OrderOnly` | `argsort` looks at its argument only through comparisons: two vectors with the same pairwise order and the same NaNs are sorted alike (C60) | `Mono.v` |
| `OrdLaws` and the laws of `Laws.v` | order laws with NaN, `lhs`/`uniform`/clip stay in range: proved for the instances, not assumed of them | `Num.v`, `Laws.v` |
| `ExpOK` | the platform's binary64 `exp` is never negative | `Laws.v` |
| `EighRows` | `eigh` of a matrix with n rows returns n values and n rows | `DimCma.v` |
| `EighShape` | `eigh` of a d x d matrix returns d values and a d x d matrix | `Adapt.v` |
| `EmptyShape` | `np.empty(n)` has n entries | `Adapt.v` |
| `PctOK`, `MedOK` | percentile of finite numbers is finite and monotone in the rank; median of non-negative finite numbers is one | `Pen.v` |
| `EmptyLen` | `np.empty(n)` has length n | `PenRun.v` |
| `EighPD` | `eigh` of a symmetric positive definite real matrix returns positive finite eigenvalues and finite vectors | `CmRun.v` |
| finite `randn` | normal deviates are finite numbers | C28_run, C31, C54 |
| `BcastKeeps` | what rank 0 broadcasts satisfies the property the rank's own data satisfies (MPI backend only) | `Safe.v`, `Feas.v` |

## 4. Properties and proofs

| id | what is modelled / how it is proved |
|----|----|
| C01 | main loops with fuel; fuel never exhausted, nit bound by induction on the loop |
| C02, C03 | trace of calls; loop invariant relating the trace to `it` |
| C04 | case analysis of the selection/convergence functions lifted through the loop |
| C05, C06 | loop invariant "best = minimum of the trace"; generic over `OrdLaws` |
| C07 | loop invariant on callback states |
| C08 | computed binary64 counterexample; invariant on status |
| C09 | invariant "argmin is a NaN" |
| C10 | Hoare rule for the trial generation; generic over order laws + `UniformLaw` (proved for binary64 with Flocq and for exact arithmetic) |
| C11, C12 | exact arithmetic (`ENum`), invariant on swarm / generation; binary64 counterexamples |
| C13 | order laws only, so valid in binary64 up to the final affine map (exact arithmetic) |
| C14 | exact arithmetic + permutations |
| C15 | relational (two-run) logic `Rel.v`; scheduler as arbitrary permutation, MPI sum as arbitrary tree over the ranks |
| C16 | equality of programs |
| C17 | permutation/sortedness argument; computed counterexample for the sentinel |
| C18, C19 | loop invariant on the record; computed counterexamples |
| C20, C21 | direct, all strategies |
| C22, C23 | decision procedure of the argument checks characterised by an independent predicate |
| C24 | state field `argbuf` |
| C25 | trace discipline closed under the monad's operations |
| C26 | loop invariant; computed counterexample; `Member`: drawn point, evaluated point, objective value, rank; `Generation`: the members of the last popsize evaluations, rank = value plus the weighted squared overshoot of the drawn point |
| C27, C28 | real analysis; C28 also as invariant of all visited states (`Visit.v`) |
| C29 | inequality on the history window, lifted through the loop |
| C30, C31, C54 | exact arithmetic, invariants of visited states |
| C32-C36 | chain invariants, exact acceptance rule on `ENum`, computed counterexamples |
| C37-C40 | chain invariants, exact identities; C40: `derivable_pt_lim` of the standard library along one coordinate |
| C41 | real inequalities; `C41_*_binary64`: the same bound for rounded arithmetic, by monotonicity of rounding (Flocq); `Red op z l v`: v combines the numbers of l in some order, with some parentheses |
| C42 | association-list model of the result dictionary |
| C43 | model of keyword binding |
| C44 | seeding resets the generator part of the state; equality of two runs |
| C45 | evaluation of the argument check |
| C46 | lock-step logic `Lock.v`: two ranks with unrelated generators, the collectives deliver the same to both |
| C47 | relational logic `Rel.v`; independence of the field `e_empty` |
| C55 | trace rule `Explore.v` for the models kept by na; cell inequality by induction over the axes, exact arithmetic |
| C56 | logic `calm` on exceptions |
| C57 | inductive relation `Flight` (swarm, velocities, memories, evaluations), invariant of the main loop |
| C58 | inductive relation `Adapt` (search distribution, evaluations), all equations by entries; invariant of the main loop |
| C59 | inductive relation `VAdapt` (search distribution, evaluations), all equations by entries; invariant of the main loop |
| C60 | two runs compared (`rel` between the environment and its transform): same draws, same points, transformed values; cmaes/vdcma: one trace is a prefix of the other |
| C61 | two runs compared, as for C60; the acceptance test and the finite differences see only differences of values |
| C62 | two runs compared: bounds, x0 and objective in new units x -> s*x + o, axis by axis with s > 0; same random numbers |
| C63 | two runs compared: same call and random numbers, other maxiter, xtol and ftol; prefix relation on traces and records, stopping reason related by a parameter SR |
| C64 | the case of C63 with another xtol only |
| C65 | the exceptions that can leave a valid call of cmaes, vdcma, mcmc and hmc (C56 has the other four optimisers); cal X m Q: exceptions of m lie in X, results in Q |
| C66 | `Harmless K`: the callback only changes parts of the user's state that the objective does not read; `own`: exceptions of the callback, of the history arrays and of the callable check |
| C67 | `Tame`: objective and callback return and leave the generator alone; `Delivers` (C46): what rank 0 sends is what the other rank receives; `InStep` (C46): same result or exception, same collectives in the same order, same callback sequence |
| C68 | `consume us g`: the generator g after the draws us (one double, one normal deviate, a permutation of n, an integer below n); `first_pop`, `de_gen`, `pso_gen`, `na_gen`, `first_mean`, `cma_gen`, `vd_gen`, `mcmc_move`, `hmc_step`: the draws of each phase as explicit lists; `begin`: the seeded or current generator; `Gentle`: user code leaves the generator alone |
| C69 | `along q x u`: the point after the fraction q of the move u; `Furthest`: the last point of the segment within the bounds; `pt l n`, `val l n`: the n-th evaluation; `Replay`: evaluation n follows from the earlier evaluations (position and velocity are the last evaluation and its difference to the one before, the two attractors are best evaluations) |
| C70 | `Verdict`: the ten conditions with their constants in order, `Greatest`, `Least`, `FirstOf`: largest and smallest entry, first condition that holds; `Course`: one verdict per generation, none before the last; `CmaGen`, `VdGen`: the verdict of a generation is that of its distribution (see C58, C59) |
| C71 | `Central`: the 2d evaluations and the difference quotients of a gradient; `Flight`: the leap-frog equations number by number; `Kin`, `Decides`, `HmStep`: a step with all its evaluations; `QuadStep`, `quad`, `sumN`: a step on a quadratic objective, on reals |
| C72 | `step`: the intermediate points of the walk, from evaluated points only; `InCell`: a section of a Voronoi cell in the unit cube; `Draw`: a uniform draw from an interval that is the section; `Walked`: the generations |
| C73 | `Closed`: a set of numbers the strategy's formula does not leave; `Agree`: the points share a coordinate; `form`, `OnPlane`: a hyperplane |
| C74 | `slowest d mu`: exp(-cs/damps) * sqrt(1 - c1 - cmu), written with plain real arithmetic; `Course`, `CmaGen`, `VdGen` as in C70 |
| C75 | `isinf`, `Lost f g` (both +inf, or one NaN), positions in the list of evaluations; the chain as in C32 and C71 |
| C76 | `mine` (indices congruent to the rank), `Round`, `Rounds` over the events of the trace; sums over `seq 0 size` |
| C77 | `course` (states of the generations of the run), `NanSeen` (a NaN value among the evaluations of a generation), `OutMean` (some coordinate of the mean below -1 or above 1), `NotNum` |
| C78 | `Above` (not at most the level: larger, or NaN), `SameAnswer` (objectives agree on values at most the level, and are above it at the same points), `other_fun` (the same environment with another objective), `SameCall` |
| C79 | `Parted` (the traces agree up to the first evaluation at a point of D, the same point in both), `needle` (the objective changed at the points np.array_equal to z), `other_fun` |
| C80 | `Memoryless` (objective a function of the point; callback without effect), `resuming` (the call with x0 = X as array and no seed), `Later`, `LaterRes` (same calls, same result, counters shifted by k generations) |
| C81 | `SMemoryless`, `starting` (the call with x0 = x and no seed), `Joined` (samples and values put together at x, accepted moves and evaluation counts add up), `Continued` (evaluations and generator state as well) |
| C82 | `NanAt` (one coordinate is NaN), `Stuck` (by index of the samples; starting point and reported sample) |
| C83 | `NanAt`, `OnlyBest` (the strictly least of the first popsize values), `Infected` (by number of the evaluation) |
| C48-C53 | chain invariants, termination of the samplers, `Safe.v` logic on all points |

Three program logics carry the run theorems: `wp`-style rules for runs that return a result
(`Hoare.v` to `Runs.v`: every run is a *history* of generations), `safe` for everything user code
gets to see, also in runs that raise (`Safe.v`), and `gives`/`visited` for the states at the end
of each iteration (`Visit.v`).

## 5. Files

| file | content |
|---|---|
| `Base.v` | Python-level vocabulary shared by the whole model: exceptions and the list operations that stand for numpy array operations. |
| `Num.v` | The numbers of the model. |
| `NumR.v` | The real-number instance. |
| `NumE.v` | Exact real arithmetic with the IEEE special values: what the code would compute without rounding and overflow. The only zero is +0. |
| `NumF.v` | IEEE binary64 (Coq primitive floats). |
| `FBridge.v` | Binary64 through extended reals: every operation is the exact one followed by rounding. |
| `FLaws.v` | Facts of binary64 arithmetic used by the feasibility and restart theorems. |
| `Env.v` | The environment of a run (random generator, user code, numpy routines), the state, the trace, and the monad in which the model is written. |
| `Common.v` | stochopy/optimize/_common.py and the loop that all optimizers share. |
| `DE.v` | Differential Evolution: stochopy/optimize/de. |
| `CPSO.v` | Competitive Particle Swarm: stochopy/optimize/cpso and stochopy/optimize/pso. |
| `NA.v` | Neighborhood Algorithm: stochopy/optimize/na/_na.py. |
| `Mat.v` | The matrix operations of numpy used by CMA-ES and VD-CMA (matrices are lists of rows). |
| `CMAES.v` | CMA-ES: stochopy/optimize/cmaes. |
| `VDCMA.v` | VD-CMA: stochopy/optimize/vdcma/_vdcma.py. |
| `Sample.v` | The samplers: stochopy/sample. |
| `Weights.v` | C27: the recombination weights and learning rates of CMA-ES, in exact arithmetic. |
| `Cov.v` | C28: the covariance update of CMA-ES keeps symmetric positive definite matrices, in exact arithmetic. |
| `Hoare.v` | Program logic for the monad: weakest preconditions, and observations of the trace. |
| `EvalRules.v` | Hypotheses about the environment (each is a fact of numpy / joblib / MPI), and the rules for evaluating a population. |
| `Gen.v` | One generation of DE, CPSO and NA, abstractly: which points were evaluated, and how the population and the best solution follow from their values. |
| `Steps.v` | The generations of DE, CPSO and NA, as programs, follow [GenStep]. |
| `Hist.v` | The history of a run of DE, CPSO or NA: initial population, then generations. |
| `Runs.v` | From the programs to histories: every returned result of de, cpso/pso and na comes from a history, and no run gets stuck in its loop. |
| `CmaRun.v` | The history of a run of CMA-ES or VD-CMA: one generation after the other. |
| `Best.v` | Best-so-far: what selection does to the kept solutions, in any arithmetic with [OrdLaws]. |
| `Inst.v` | Contracts of the environment, and the first instance of the run theorems: every run of de, cpso, pso and na that returns comes from a history. |
| `HistFacts.v` | Consequences of a history: counts, callbacks, status, best solution, NaN, record. |
| `HistBest.v` | Consequences of a history: best solution, NaN, status, record. |
| `Laws.v` | The arithmetic laws some theorems ask for, proved for exact arithmetic with special values ([ENum]) and for binary64 ([FNum]). |
| `PropPop.v` | C01-C09, C18, C19, C24 for the population methods (de, cpso, pso, na). |
| `PropRec.v` | C18, C19 and C24 for the population methods. |
| `PropCma.v` | C01-C04, C18, C26 for CMA-ES and VD-CMA. |
| `CmaStop.v` | C29: the stops EqualFunValues and TolFun of CMA-ES and VD-CMA. |
| `Disc.v` | C25: an exception of user code ends the run at once, and no other exception hides one. |
| `Seed.v` | C44: with a seed the run does not depend on the state of the generator before the call. |
| `Valid.v` | C22 (argument validation), C23 (which mode runs), C16 (pso), C45 (na's default callback). |
| `Accept.v` | C22, second half: valid arguments are accepted, i.e. the run reaches the objective. |
| `Chain.v` | Trajectories of the samplers: an abstract chain, and the runs of mcmc and hmc as chains. |
| `Mcmc.v` | The runs of mcmc (sample/mcmc/_mcmc.py) as chains. |
| `PropMc.v` | Theorems about mcmc: C32-C36, C48, C49, C50. |
| `Hmc.v` | The runs of hmc (sample/hmc/_hmc.py) as chains. |
| `PropHmc.v` | Theorems about hmc (C36-C38, C49) and about the callbacks of both samplers (C50). |
| `PropCb.v` | C50: the callbacks of the samplers. |
| `Keep.v` | Programs that leave the caller's array alone (C24 for na, cmaes, vdcma; C51 for the samplers). |
| `Safe.v` | What user code gets to see, in every execution: a logic for predicates on the points handed to the objective and to the callback. It also covers executions that end in an exception. |
| `Feas.v` | Feasible points: bounds, the Latin Hypercube, and C10. |
| `FeasPso.v` | C11: PSO and CPSO with constraints = "Shrink" stay in the box (exact arithmetic). |
| `FeasNa.v` | C13: the Neighborhood Algorithm stays in the box. |
| `DimCma.v` | CMA-ES and VD-CMA: what the points of every run have in common (dimensions, C12, C52). |
| `FeasCma.v` | C12: with constraints="Penalize" cmaes and vdcma evaluate points of the box only. |
| `ExFeas.v` | Computed binary64 runs for the feasibility claims: what C10 to C14 state in exact arithmetic is missed by one rounding in binary64. |
| `PlainEnv.v` | An environment over any arithmetic: the contracts of the theorems (EnvOK, EighRows) can be met, in particular over the extended reals, where nothing can be computed. |
| `FeasEx.v` | The exact and the binary64 instance of C10, and concrete data over the extended reals that meet the hypotheses of C10 to C13. |
| `FirstPop.v` | The first popsize points that a population method evaluates: the rows of x0, or a Latin Hypercube sample. Every execution, also those that raise. |
| `Strat.v` | C14 and C53: the initial population, in exact arithmetic. |
| `Trial.v` | C21: the trial vectors of Differential Evolution. |
| `Enough.v` | C20: the strategies of Differential Evolution need enough individuals. |
| `ExDE.v` | Runs of de, computed by the kernel, that meet the hypotheses of C14, C20, C21 and C53. Binary64, any C library. |
| `Restart.v` | C17: the restart of competitive PSO; C05 and C06 for cpso in binary64. |
| `Call.v` | Calls by keyword: stochopy/optimize/_helpers.py, stochopy/sample/_helpers.py, the signatures of the solvers and pso's positional call of cpso. |
| `Dispatch.v` | minimize and sample as functions of a method name and a dictionary of options (C43), pso as cpso without competition (C16), the default callback of na (C45). |
| `DispEx.v` | Calls of minimize and sample in binary64: instances of the hypotheses of Dispatch.v (C43), a zero competitivity (C16), na called through minimize (C45). |
| `Modes.v` | C23: which mode runs. |
| `ModesEx.v` | Runs of the two modes of de (C23). |
| `Dims.v` | C52: every point has the dimension of the problem, in every arithmetic and every execution. |
| `DimsEx.v` | Runs that meet the hypotheses of the theorems of Dims.v, computed by the kernel: a run of de that ends in an exception of the objective. |
| `Demo.v` | A concrete environment, used to run the model: it shows that the hypotheses of the theorems can be met, and yields the counterexamples. |
| `ExPop.v` | Runs of the population methods, computed by the kernel: the hypotheses of the theorems of PropPop.v and PropRec.v are met by real runs, and the claims that the code does not satisfy have counterexamples. Binary64 arithmetic; de, pso and na runs hold for any C library. |
| `ExCma.v` | Runs of cmaes and vdcma, computed by the kernel in binary64 arithmetic with the elementary functions of Demo.v: the hypotheses of PropCma.v and CmaStop.v are met by real runs, and C26 and C30 have their counterexamples. |
| `HmcReal.v` | C39, C40: leap-frog integration and numerical gradient in exact arithmetic. |
| `SampInst.v` | The sampler theorems on the two concrete number systems: NaN laws, the acceptance rule in exact arithmetic (C33), and computed runs (C32-C36, C38, C40, C48-C51). |
| `ExSamp.v` | Runs of the samplers, computed by the kernel on binary64: the hypotheses of the sampler theorems are met, and the claims the code does not satisfy have counterexamples. |
| `Bench.v` | The benchmark functions: stochopy/factory/benchmark.py, and C41. |
| `Result.v` | Result objects: stochopy/_common.py:1-35 (BaseResult), and C42. A str is the list of its code points; a dict is the list of its items in insertion order. |
| `ResultEx.v` | C42 for the results of the optimizers and samplers, and concrete cases. |
| `VdReal.v` | C31: the truncated natural-gradient step of VD-CMA in exact arithmetic. |
| `Visit.v` | The states a run passes through at the end of its iterations. |
| `VdRun.v` | C31 for the runs of vdcma (exact arithmetic). |
| `VdRunEx.v` | C31: calls of vdcma that meet the hypotheses of the theorems (exact arithmetic). |
| `CmReal.v` | The matrix operations of CMA-ES on finite numbers: the extended reals agree with the reals. |
| `CmRun.v` | C28 and C54 for the runs of cmaes (exact arithmetic): the covariance matrix stays symmetric positive definite, and every point handed to the objective is a vector of finite numbers. |
| `CmRunEx.v` | C28 and C54: calls of cmaes that meet the hypotheses of the theorems (exact arithmetic). |
| `EvalVal.v` | The values a population is given: each is one the objective can return at that row. |
| `Pen.v` | C30: the boundary penalty of CMA-ES and VD-CMA (cmaes/_constraints.py) in exact arithmetic. |
| `PenRun.v` | C30 for the runs of cmaes with constraints = "Penalize" (exact arithmetic). |
| `PenRunEx.v` | C30: a call of cmaes that meets the hypotheses of the theorems of PenRun.v (exact arithmetic): the mean starts below the lower bound and the normal numbers drawn are all zero, so that it stays there. |
| `Rel.v` | Two runs side by side: the same program in two environments (or two programs that differ in how they evaluate a population), from related states. |
| `Vary.v` | The optimizers in two environments that differ only in the scheduler, the MPI collectives and the contents of [np.empty], and with two ways of evaluating a population. |
| `Par.v` | Parallel evaluation does not change the run (C15): evaluation by joblib, in any order, and by MPI, with any number of ranks and any reduction order, against serial evaluation. |
| `PropPar.v` | C15: parallel evaluation does not change the run; C47: the run does not depend on the contents of uninitialised memory. |
| `ParEx.v` | C15 and C47 at work: binary64 and real runs that meet their hypotheses, and the runs that the hypotheses exclude. |
| `ParReal.v` | C15 and C47 over the extended reals: their hypotheses in terms of the arguments. |
| `Lock.v` | C46: the ranks of an MPI run of de, side by side. Rank 0 runs in one environment, another rank in a second one. Their generators are unrelated; the n-th Bcast and the n-th Allreduce deliver to the second what they deliver to the first. |
| `LockEx.v` | C46 at work: a de run on two ranks with different generators, and runs of the other methods in which two ranks disagree. |
| `Explore.v` | The Neighborhood Algorithm as an exploration: every generation is drawn from all models evaluated so far (for every arithmetic; used by Cells.v). |
| `Cells.v` | C55: the Neighborhood Algorithm draws its new models from the Voronoi cells of the best models found so far (exact arithmetic, all bounds with lower < upper). |
| `Calm.v` | C56: a valid call of de, cpso, pso or na raises no exception of its own. The only exceptions that can leave the call are those of the user's functions. |
| `CalmEx.v` | C56 and C55: the conditions in exact arithmetic, calls that meet them, and calls that the theorems exclude for a reason. |
| `Flight.v` | C57: the flight of the particles of pso and cpso. |
| `FlightEx.v` | C57 in binary64, and runs that meet its hypotheses. |
| `Adapt.v` | C58: how cmaes moves and reshapes its search distribution. |
| `AdaptEx.v` | C58 in binary64, and runs that meet its hypotheses. |
| `VAdapt.v` | C59: how vdcma moves and reshapes its search distribution. |
| `VAdaptEx.v` | C59 in binary64, and runs that meet its hypotheses. |
| `Mono.v` | C60: de, cpso, pso and na use the values of the objective only through comparisons: an increasing transformation of the objective (and of ftol) gives the same run. |
| `MonoEx.v` | C60 in exact arithmetic and in binary64, and runs that meet its hypotheses. |
| `Shift.v` | C61: the samplers use the values of the objective only through their differences and their order: a constant added to the objective gives the same samples. |
| `ShiftEx.v` | C61 in exact arithmetic and in binary64, and runs that meet its hypotheses. |
| `Units.v` | C62: change of the units of the variables. Scalar laws in exact arithmetic. |
| `UnitsRun.v` | C62: the units in which the variables are measured do not matter (exact arithmetic). |
| `UnitsSamp.v` | C62 for the samplers: the units of the variables do not matter (exact arithmetic). |
| `UnitsClaims.v` | C62: the units of the variables do not matter (exact arithmetic): the claims. |
| `UnitsEx.v` | C62: calls that meet its hypotheses, and what it excludes. |
| `Limits.v` | C63, C64. What maxiter, xtol and ftol do to a run: two calls that differ in these three arguments only are compared, from the same state and with the same user code. |
| `LimitsClaims.v` | C63, C64: the claims. What can change when a call is repeated with other values of maxiter, xtol and ftol. |
| `LimitsSamp.v` | C63 for the samplers: a chain with a larger maxiter begins with the shorter chain. |
| `LimitsEx.v` | C63, C64: runs that meet the hypotheses, and what fails without them. |
| `CalmCma.v` | C65: the exceptions that can leave a valid call of cmaes, vdcma, mcmc or hmc. |
| `PenCalm.v` | C65 in exact arithmetic: cmaes with Penalize does not raise ValueError when the objective values are finite. |
| `CalmCmaEx.v` | C65: calls in binary64 that meet the conditions, and calls outside them that raise. |
| `PenCalmEx.v` | C65 with Penalize in exact arithmetic: a call that meets the hypotheses, and so returns. |
| `Watch.v` | C66: return_all, verbosity and the callback only watch a run. |
| `WatchEx.v` | C66: a callback with a memory of its own, watched and unwatched runs in binary64. |
| `Ranks.v` | C67: with the same seed (or the same generator) on every rank, the ranks of an MPI run of any optimizer stay in lock-step. Rank 0 runs in [E0], another rank in [E1]; the n-th Bcast and the n-th Allreduce deliver to the second what they deliver to the first ([Delivers]). |
| `RanksEx.v` | C67 at work: the six optimizers on two ranks. |
| `Draws.v` | C68: which random numbers a call uses. A call that returns has drawn from numpy's generator exactly the numbers that its arguments and the number of iterations determine, whatever the objective returned. |
| `DrawsAlg.v` | C68 for the eight entry points. |
| `DrawsEx.v` | C68: common random numbers, and runs with a generator that writes down what is drawn. |
| `Replay.v` | C69: in exact arithmetic a pso run with constraints = "Shrink" can be replayed from its evaluations alone, and every particle goes as far as the bounds allow. |
| `ReplayEx.v` | C69: calls that meet the hypotheses, and a swarm that comes to rest on a wall. |
| `LastGen.v` | C26 and C18 for CMA-ES and VD-CMA with any constraints option: what is returned and recorded when the values are penalised. |
| `LastGenEx.v` | C26 with Penalize: a computed binary64 run whose result is the worst point of its last generation. |
| `VdFin.v` | C54 for the runs of vdcma (exact arithmetic): while the mean moves, all points are finite. |
| `VdPen.v` | C30 and C65 for the runs of vdcma with constraints = "Penalize" (exact arithmetic). |
| `VdPenEx.v` | C30, C54, C65: a call of vdcma with Penalize that meets the hypotheses of the theorems of VdFin.v and VdPen.v (exact arithmetic): two points per iteration, one of them a parent, every normal number drawn is one, the objective is constant. |
| `LowSide.v` | C58: below the box the penalty weights do not grow. |
| `Reasons.v` | C70: cmaes and vdcma stop in the first generation that gives a reason to stop, and the status is the first reason in the stated order. |
| `ReasonsEx.v` | C70 in binary64, and runs that stop for different reasons. |
| `HmcEq.v` | The steps of hmc (sample/hmc/_hmc.py:145-175) written as equations between numbers, with every evaluation of the run accounted for (C71). |
| `Energy.v` | hmc on a quadratic objective in exact arithmetic (C71): the proposals in closed form, the energy error of the integrator, and the acceptance rule that follows. |
| `EnergyEx.v` | Data meeting the hypotheses of C71: a quadratic objective with two different curvatures, exact arithmetic. |
| `Gibbs.v` | C72: every coordinate of a new model of na is drawn uniformly from the section of the Voronoi cell of its parent along that axis (exact arithmetic, all bounds with lower < upper). |
| `GibbsEx.v` | C72: a call that meets its hypotheses. |
| `Keeps.v` | C73: what every individual of the initial population has in common and the trial formula preserves, every later individual has (for every arithmetic; used by Hull.v). |
| `Hull.v` | C73: the initial population limits the search of de, pso and cpso without competition (exact arithmetic): a coordinate in which all individuals agree never changes; de with an integer mutation factor stays on a grid, without mutation it only recombines, and with recombination 1 it never leaves the affine hull of the initial population. |
| `HullEx.v` | C73: calls that meet the hypotheses, and a run with recombination < 1 that leaves the line of its initial population. |
| `Slow.v` | C74: how fast cmaes can shrink its search distribution, in exact arithmetic. |
| `SlowEx.v` | C74: a call that meets the hypotheses; its nine generations are too few for the statuses -3 and -8. |
| `SlowVd.v` | C74 for vdcma: how fast the step size can change, in exact arithmetic. |
| `SlowVdEx.v` | C74: a call of vdcma that meets the hypotheses of C74_vdcma. |
| `BenchF.v` | C41 in binary64: the rounded benchmark functions are never negative. |
| `BenchFEx.v` | C41 in binary64: functions of a platform that meet the hypothesis on the cosine, and values there. |
| `Wall.v` | Infinite values of the objective in the samplers (C75): a wall for mcmc, a hole for hmc. |
| `WallEx.v` | C75 on the two number systems, and runs that meet its hypotheses. |
| `BenchOrd.v` | C41 in binary64 for every order of summation: numpy adds pairwise, in blocks, with several accumulators; whatever it does, the benchmark functions are not negative. |
| `Shares.v` | C76: what one process of an MPI run does: in every iteration it receives the points, evaluates the points whose index is its rank modulo the number of processes, and receives the values. |
| `SharesEx.v` | C76 at work: the six optimizers on three ranks with four points per iteration. |
| `PenNan.v` | C77: what one NaN value of the objective does to a penalized run of cmaes or vdcma. |
| `PenNanEx.v` | C77 on the two number systems, and runs that meet its hypotheses. |
| `Refuse.v` | C78: how bad a value is does not matter to de, pso and cpso once it is worse than every value of the initial population: the objective may return any such value (a large number, infinity, NaN) and the run is the same. |
| `RefuseEx.v` | Runs that meet the hypotheses of C78, binary64. |
| `Agree.v` | C79: a run depends on the objective only through its answers at the points it evaluates, and two objectives lead to the same run up to the first point where they differ. |
| `AgreeEx.v` | C79 in exact arithmetic: no run can tell that its result is a minimum; and runs that meet the hypotheses of C79. |
| `Grad.v` | C40, continued: how far hmc's numerical gradient is from the gradient (exact arithmetic). |
| `Resume.v` | C80: a deferred run of de is resumed from its population. With an objective and a callback without memory, a call whose [x0] is the population that the last callback of a run ended by maxiter has seen, made in the random state which that run left, continues it: it does what one long run does from there on. |
| `ResumeEx.v` | Runs that meet the hypotheses of C80, and runs outside them that cannot be resumed, binary64. |
| `Concat.v` | C81: two chains one after the other are one chain. With an objective and a callback without memory, a sampler called with [x0] = the last sample of a chain, in the random state which that chain left, continues the chain. |
| `ConcatEx.v` | Chains that meet the hypotheses of C81, and a chain cut in the middle of a sweep over the blocks, which is not continued; binary64. |
| `DimsHmc.v` | C52 for hmc: every point, those of the numerical gradient included, has the dimension of the problem. |
| `Poison.v` | C82: a chain never leaves a NaN coordinate. |
| `PoisonEx.v` | C82: runs from a starting point with a NaN coordinate. |
| `Silent.v` | C50: without a callback a sampler does nothing that can be seen but evaluate the objective, also when the run raises. |
| `SilentEx.v` | C50: runs without a callback that return and that raise. |
| `Infect.v` | C83: NaN coordinates in pso (and cpso without competition). |
| `InfectEx.v` | C83: runs of pso in which one starting particle has a NaN coordinate that the objective does not look at. |
| `Collapse.v` | C73: a collapsed initial population never moves. |
| `CollapseEx.v` | C73: runs from a collapsed initial population. |

## 6. Trusted base

Coq 8.16.1's kernel (including `vm_compute` and primitive floats/integers), the axioms that
`Print Assumptions` lists (standard library only, below), the reading of the Python source recorded
in the comments, and the contracts of section 3. Flocq is used for proofs about rounding (`FBridge.v`,
`FLaws.v`, `Laws.v`); it adds no axiom.

`Print Assumptions` of every theorem of `MANIFEST.json` (`PrimFloat.*`, `PrimInt63.*` are the
primitive types and operations themselves; `FloatAxioms.*`, `Uint63.*` the specifications of these
operations):

* **closed under the global context**
  C01_terminates_population, C01_nit_population, C01_small_maxiter, C01_terminates_cma, C01_nit_cma, C01_no_iteration_cma, C02_nfev_population, C02_nfev_cma, C03_callbacks_population, C03_callbacks_cma, C04_status_population, C04_xtol_deferred, C04_xtol_immediate, C04_status_cma, C04_xtol_cma, C05_best_population, C06_monotone_population, C07_deferred_ftol, C08_immediate_stop, C09_nan_poison, C10_after_initial, C10_all, C13_fixed_coordinates, C15_de, C15_cpso, C15_pso, C15_na, C15_cmaes, C15_vdcma, C15_shares, C16_pso_is_cpso, C17_restart, C18_shape_population, C18_no_result, C18_rows_pso, C18_shape_cma, C18_rows_cma, C18_members_cma, C19_na_rows, C19_de_rows, C20_too_few, C20_too_few_index_error, C20_enough, C20_two_individuals, C21_trials, C22_rejected_de, C22_rejected_cpso, C22_rejected_pso, C22_rejected_na, C22_rejected_cmaes, C22_rejected_vdcma, C22_rejected_mcmc, C22_rejected_hmc, C22_accepted_de, C22_accepted_cpso, C22_accepted_pso, C22_accepted_na, C22_accepted_cmaes, C22_accepted_vdcma, C22_accepted_mcmc, C22_accepted_hmc, C22_nan_rejected, C22_nan_sigma, C23_two_modes_de, C23_two_modes_cpso, C23_evolution_de, C23_unknown_backend_de, C23_unknown_backend_cpso, C23_unknown_backend_other, C23_no_backend_error, C24_unchanged, C24_overwritten, C24_unchanged_any, C25_propagates, C25_no_other, C25_genuine, C26_last_generation, C26_best_rank, C26_callback, C29_measured_against_zero, C29_no_stagnation_stop, C32_chain_mcmc, C33_downhill, C34_best_mcmc, C35_returns, C35_raises, C36_reject_mcmc, C36_reject_hmc, C37_chain_hmc, C38_recursion, C43_unknown_method, C43_unknown_sampler, C43_bad_option, C43_bad_sampler_option, C43_no_options, C43_direct, C43_direct_sampler, C43_de, C43_cpso, C43_pso, C43_na, C43_cmaes, C43_vdcma, C43_mcmc, C43_hmc, C45_direct_na, C44_seed_de, C44_seed_cpso, C44_seed_pso, C44_seed_na, C44_seed_cmaes, C44_seed_vdcma, C44_seed_mcmc, C44_seed_hmc, C46_de, C47_cmaes, C47_vdcma, C48_nan_accepted_mcmc, C49_mcmc_terminates, C49_mcmc_diverges, C49_hmc_raises, C49_hmc_terminates, C50_callbacks_mcmc, C50_callbacks_hmc, C50_no_callback, C50_silent_mcmc, C50_silent_hmc, C51_stepsize_mcmc, C51_stepsize_hmc, C52_de, C52_cpso, C52_pso, C52_na, C52_cmaes, C52_vdcma, C52_mcmc, C52_hmc, C53_x0_first, C56_only_user_exceptions, C56_returns, C56_return_all_small, C57_flight, C57_flight_pso, C58_adaptation, C59_adaptation, C60_de, C60_cpso, C60_pso, C60_na, C60_cmaes, C60_vdcma, C61_mcmc, C61_hmc, C63_de, C63_cpso, C63_pso, C63_na, C63_cmaes, C63_vdcma, C63_budget_de, C63_budget_cpso, C63_budget_pso, C63_budget_na, C63_budget_cmaes, C63_budget_vdcma, C63_ftol_de, C63_ftol_cpso, C63_ftol_pso, C63_ftol_na, C63_ftol_cmaes, C63_ftol_vdcma, C63_mcmc, C63_hmc, C64_de, C64_cpso, C64_pso, C64_na, C64_cmaes, C64_vdcma, C65_cmaes, C65_vdcma, C65_cmaes_returns, C65_vdcma_returns, C65_hmc, C65_hmc_returns, C65_mcmc, C65_mcmc_returns, C66_unwatched, C66_same_search, C66_no_rescue, C66_only_own, C66_passive, C67_in_step, C68_de, C68_cpso, C68_no_competition, C68_pso, C68_na, C68_cmaes, C68_vdcma, C68_mcmc, C68_hmc, C68_common_numbers, C68_common_samples, C70_cmaes, C70_vdcma, C70_target, C71_equations, C73_closed, C75_mcmc, C75_hmc, C76_split, C76_size, C76_balanced, C76_rounds, C76_calls, C76_nfev, C76_least, C76_least_cma, C77_cmaes, C77_vdcma, C78_de, C78_pso, C78_cpso, C79_optimizers, C79_mcmc, C79_hmc, C79_unseen, C79_unseen_mcmc, C79_unseen_hmc, C79_needle, C80_resume, C81_mcmc, C81_hmc, C82_mcmc, C82_hmc, C83_cpso, C83_pso, C42_access, C42_repr, C42_optimize_result, C42_sample_result, C42_run
* **`ClassicalDedekindReals.sig_forall_dec`; `FunctionalExtensionality.functional_extensionality_dep`**
  C28_diagonal, C39_reversible_any_gradient, C40_exact_quadratic, C40_error_attained, C72_first_axis, C72_in_cell
* **`ClassicalDedekindReals.sig_forall_dec`; `ClassicalDedekindReals.sig_not_dec`; `FunctionalExtensionality.functional_extensionality_dep`**
  C30_asymmetry, e_literal_small, e_literal_close
* **`PrimFloat.*` (primitives: add, eqb, float)**
  C41_orders_differ
* **`ClassicalDedekindReals.sig_forall_dec`; `ClassicalDedekindReals.sig_not_dec`; `Classical_Prop.classic`; `FunctionalExtensionality.functional_extensionality_dep`**
  C10_exact, C10_C11_C13_hypotheses, C11_cpso, C11_pso, C12_cmaes, C12_vdcma, C13_na, C14_stratified, C14_returned, C15_adds_zero_real, C27_weights, C27_mueff, C27_rates, C27_cma, C27_no_memory, C27_one_parent, C28_update, C28_symm, C28_start, C28_every_generation, C28_example, C28_run, cmaes_start, C28_hypotheses, pen_safe, C30_weights, C30_states, C30_fun, C30_growth, C30_lower_bound, C30_hypotheses, C30_states_vdcma, C30_fun_vdcma, C30_states_vdcma_hypotheses, vd_update_fin, C31_positive, C31_step, C31_low_dim, low_rates, C31_still, vdcma_prefix, C31_hypotheses, C33_rule, C33_detailed_balance, C33_mcmc_decisions, C33_hmc_decisions, C39_reversible, C40_central, C40_mean_value, C40_error_lipschitz, C40_error_second, C40_accuracy, C47_cmaes_real, C47_vdcma_real, C53_na_x0_first, C54_cmaes, rates_enough, C54_vdcma, C54_one_parent_moves, C54_vdcma_one_parent, C65_vdcma_penalize_hypotheses, C55_na, C55_hypotheses, C56_exact, C56_hypotheses, C56_exact_returns, C58_below_box, C58_below_box_hypotheses, C60_increasing, C61_constant, C62_de, C62_cpso, C62_pso, C62_na, C62_cmaes, C62_vdcma, C62_mcmc, C62_hmc, C62_callback, C62_scallback, C62_runs, C65_penalize_exact, C65_penalize_returns, C65_penalize_hypotheses, C65_penalize_vdcma, C65_penalize_vdcma_returns, C69_replay, C69_full, C69_stuck, C69_hypotheses, C71_quadratic, C71_inward, C71_bounded, C71_hypotheses, C71_angle, C72_walks, C72_hypotheses, C73_frozen_de, C73_grid, C73_recombination, C73_hull, C73_frozen_cpso, C73_frozen_pso, C73_hypotheses, C73_hypotheses_pso, C73_collapsed_de, C73_collapsed_cpso, C73_collapsed_runs, C74_cmaes, C74_generations, C74_vdcma, C74_hypotheses, C74_vdcma_hypotheses, C79_no_certificate, C41_sphere, C41_quartic, C41_rastrigin, C41_rosenbrock, C41_griewank, C41_ackley, C41_ackley_strict, C41_styblinski_tang, C41_styblinski_negative, C41_ones
* **`PrimFloat.*` (primitives: abs, add, div, eqb, float, frshiftexp, leb, ltb, mul, of_uint63, opp, sqrt, sub); `PrimInt63.*` (primitives: eqb, int, land, lor, lsl, lsr, sub)**
  C41_binary64_hypotheses
* **`PrimFloat.*` (primitives: abs, add, div, eqb, float, frshiftexp, leb, ltb, mul, normfr_mantissa, of_uint63, opp, sqrt, sub); `PrimInt63.*` (primitives: eqb, int, land, lor, lsl, lsr, sub)**
  C01_maxiter_one, C01_maxiter_zero_cma, C08_ftol_reached_but_not_reported, C09_run, C11_binary64_overshoot, C11_needs_shrink, C12_binary64_overshoot, C13_binary64_overshoot, C14_binary64_below, C16_binary64, C17_marker_returned, C18_maxiter_one, C19_de_mismatch, C19_na_first_slice, C20_too_few_run, C21_runs, C22_infinite_bound, C23_runs, C24_de_changes_x0, C26_better_point_not_returned_cmaes, C26_better_point_not_returned_vdcma, C26_penalised_run_returns_worst, C29_runs, C30_fun_is_not_the_objective, C32_run, C34_start_not_reported, C34_infinite_fun, C35_run, C36_run, C37_run, C38_run, C40_not_restored, C43_example, C43_wrong_options, C45_minimize_na, C46_hypotheses, C46_others_disagree, C46_cmaes_leaves_early, C47_reads_memory, C47_hypotheses, C48_run, C50_silent_runs, C51_run, C55_fixed_axis, C56_maxiter_one, C56_maxiter_one_plain, C56_verbosity_two, C56_infinite_bound, C56_infinite_bound_plain, C56_na_overflow, C57_hypotheses, C58_hypotheses, C59_hypotheses, DemoEnv_OrderOnly, C61_runs, C62_binary64, C62_samplers_binary64, C62_competition_depends_on_units, C62_status_depends_on_units, C62_hmc_needs_the_step, C63_runs, C63_hypotheses, C63_competition_needed, C63_room_needed, C63_chains, C65_penalize_raises, C65_conditions_needed, C66_counter_harmless, C66_hypotheses, C66_callback_stops, C66_return_all_stops, C66_harmless_needed, C66_verbosity_stops, C67_hypotheses, C68_logs, C68_different_searches, C68_sampler_logs, C68_competition_varies, C69_rest_on_the_wall, C70_hypotheses, C73_needs_recombination, C75_mcmc_hypotheses, C75_hmc_hypotheses, C78_nan_answers, C79_missed, C80_runs, C80_not_immediate, C80_not_pso, C81_memoryless, C81_runs, C81_hypotheses, C81_mid_sweep, C82_runs, C83_runs
* **`PrimFloat.*` (primitives: abs, add, div, eqb, float, frshiftexp, ldshiftexp, leb, ltb, mul, normfr_mantissa, of_uint63, opp, sqrt, sub); `PrimInt63.*` (primitives: eqb, int, land, lor, lsl, lsr, sub); `FloatAxioms`: SF2Prim_Prim2SF**
  C15_minus_zero
* **`PrimFloat.*` (primitives: abs, add, div, eqb, float, frshiftexp, ldshiftexp, leb, ltb, mul, normfr_mantissa, of_uint63, opp, sqrt, sub); `PrimInt63.*` (primitives: eqb, int, land, lor, lsl, lsr, sub); `FloatAxioms`: SF2Prim_Prim2SF, add_spec**
  C15_adds_zero
* **`PrimFloat.*` (primitives: abs, add, div, eqb, float, frshiftexp, leb, ltb, mul, normfr_mantissa, of_uint63, opp, sqrt, sub); `PrimInt63.*` (primitives: eqb, int, land, lor, lsl, lsr, sub); `FloatAxioms`: eqb_spec, leb_spec, ltb_spec**
  C26_best_rank_hypotheses, C52_run, C52_hmc_run, C60_runs, C60_cma_hypotheses, C60_cma_stops_earlier, C65_hypotheses, C65_eigh_raises, C70_runs, C76_hypotheses, C77_hypotheses_cmaes, C77_hypotheses_vdcma, C78_runs, C79_parted_run, C80_hypotheses
* **`PrimFloat.*` (primitives: abs, add, div, eqb, float, frshiftexp, ldshiftexp, leb, ltb, mul, normfr_mantissa, of_uint63, opp, sqrt, sub); `PrimInt63.*` (primitives: eqb, int, land, lor, lsl, lsr, sub); `FloatAxioms`: SF2Prim_Prim2SF, abs_spec, add_spec**
  C15_hypotheses, C15_runs
* **`PrimFloat.*` (primitives: abs, add, div, eqb, float, frshiftexp, leb, ltb, mul, normfr_mantissa, of_uint63, opp, sqrt, sub); `PrimInt63.*` (primitives: eqb, int, land, lor, lsl, lsr, sub); `FloatAxioms`: eqb_spec, leb_spec, ltb_spec; `ClassicalDedekindReals.sig_forall_dec`; `ClassicalDedekindReals.sig_not_dec`; `Classical_Prop.classic`; `FunctionalExtensionality.functional_extensionality_dep`**
  C63_arithmetic
* **`PrimFloat.*` (primitives: abs, add, div, eqb, float, frshiftexp, leb, ltb, mul, normfr_mantissa, of_uint63, opp, sqrt, sub); `PrimInt63.*` (primitives: eqb, int, land, lor, lsl, lsr, sub); `FloatAxioms`: add_spec, div_spec, eqb_spec, leb_spec, ltb_spec, mul_spec, sub_spec**
  C77_applies
* **`PrimFloat.*` (primitives: abs, add, div, eqb, float, frshiftexp, ldshiftexp, ltb, mul, normfr_mantissa, of_uint63, opp); `PrimInt63.*` (primitives: add, eqb, int, land, leb, lor, lsl, lsr, ltb, sub); `FloatAxioms`: Prim2SF_SF2Prim, Prim2SF_valid, SF2Prim_Prim2SF, add_spec, ltb_spec, mul_spec, of_uint63_spec, opp_spec; `Uint63`: add_spec, eqb_correct, eqb_refl, leb_spec, lor_spec, lsl_spec, lsr_spec, ltb_spec, of_to_Z, sub_spec; `ClassicalDedekindReals.sig_forall_dec`; `ClassicalDedekindReals.sig_not_dec`; `Classical_Prop.classic`; `FunctionalExtensionality.functional_extensionality_dep`**
  C41_sphere_any_order, C41_quartic_any_order, C41_rosenbrock_any_order
* **`PrimFloat.*` (primitives: abs, add, div, eqb, float, frshiftexp, ldshiftexp, leb, ltb, mul, normfr_mantissa, of_uint63, opp, sqrt, sub); `PrimInt63.*` (primitives: add, eqb, int, land, leb, lor, lsl, lsr, ltb, sub); `FloatAxioms`: Prim2SF_SF2Prim, Prim2SF_valid, SF2Prim_Prim2SF, add_spec, ltb_spec, mul_spec, of_uint63_spec, opp_spec; `Uint63`: add_spec, eqb_correct, eqb_refl, leb_spec, lor_spec, lsl_spec, lsr_spec, ltb_spec, of_to_Z, sub_spec; `ClassicalDedekindReals.sig_forall_dec`; `ClassicalDedekindReals.sig_not_dec`; `Classical_Prop.classic`; `FunctionalExtensionality.functional_extensionality_dep`**
  C41_sphere_binary64, C41_quartic_binary64, C41_rosenbrock_binary64
* **`PrimFloat.*` (primitives: abs, add, div, eqb, float, frshiftexp, ldshiftexp, leb, ltb, mul, normfr_mantissa, of_uint63, opp, sqrt, sub); `PrimInt63.*` (primitives: add, eqb, int, land, leb, lor, lsl, lsr, ltb, sub); `FloatAxioms`: Prim2SF_SF2Prim, Prim2SF_valid, SF2Prim_Prim2SF, leb_spec, ltb_spec, mul_spec, of_uint63_spec, opp_spec; `Uint63`: add_spec, eqb_correct, eqb_refl, leb_spec, lor_spec, lsl_spec, lsr_spec, ltb_spec, of_to_Z, sub_spec; `ClassicalDedekindReals.sig_forall_dec`; `ClassicalDedekindReals.sig_not_dec`; `Classical_Prop.classic`; `FunctionalExtensionality.functional_extensionality_dep`**
  C58_binary64, C59_binary64, C70_binary64
* **`PrimFloat.*` (primitives: abs, add, div, eqb, float, frshiftexp, ldshiftexp, leb, ltb, mul, normfr_mantissa, of_uint63, opp, sqrt, sub); `PrimInt63.*` (primitives: add, eqb, int, land, leb, lor, lsl, lsr, ltb, sub); `FloatAxioms`: Prim2SF_SF2Prim, Prim2SF_valid, SF2Prim_Prim2SF, add_spec, ltb_spec, mul_spec, of_uint63_spec, opp_spec, sub_spec; `Uint63`: add_spec, eqb_correct, eqb_refl, leb_spec, lor_spec, lsl_spec, lsr_spec, ltb_spec, of_to_Z, sub_spec; `ClassicalDedekindReals.sig_forall_dec`; `ClassicalDedekindReals.sig_not_dec`; `Classical_Prop.classic`; `FunctionalExtensionality.functional_extensionality_dep`**
  C41_rastrigin_binary64, C41_rastrigin_any_order
* **`PrimFloat.*` (primitives: abs, add, div, eqb, float, frshiftexp, ldshiftexp, leb, ltb, mul, normfr_mantissa, of_uint63, opp, sqrt, sub); `PrimInt63.*` (primitives: add, eqb, int, land, leb, lor, lsl, lsr, ltb, sub); `FloatAxioms`: Prim2SF_SF2Prim, Prim2SF_valid, SF2Prim_Prim2SF, add_spec, div_spec, ltb_spec, of_uint63_spec, opp_spec, sub_spec; `Uint63`: add_spec, eqb_correct, eqb_refl, leb_spec, lor_spec, lsl_spec, lsr_spec, ltb_spec, of_to_Z, sub_spec; `ClassicalDedekindReals.sig_forall_dec`; `ClassicalDedekindReals.sig_not_dec`; `Classical_Prop.classic`; `FunctionalExtensionality.functional_extensionality_dep`**
  C57_binary64
* **`PrimFloat.*` (primitives: abs, add, div, eqb, float, frshiftexp, ldshiftexp, leb, ltb, mul, normfr_mantissa, of_uint63, opp, sqrt, sub); `PrimInt63.*` (primitives: add, eqb, int, land, leb, lor, lsl, lsr, ltb, sub); `FloatAxioms`: Prim2SF_SF2Prim, Prim2SF_valid, SF2Prim_Prim2SF, eqb_spec, leb_spec, ltb_spec, mul_spec, of_uint63_spec, opp_spec; `Uint63`: add_spec, eqb_correct, eqb_refl, leb_spec, lor_spec, lsl_spec, lsr_spec, ltb_spec, of_to_Z, sub_spec; `ClassicalDedekindReals.sig_forall_dec`; `ClassicalDedekindReals.sig_not_dec`; `Classical_Prop.classic`; `FunctionalExtensionality.functional_extensionality_dep`**
  C58_runs, C58_penalized_runs, C59_runs
* **`PrimFloat.*` (primitives: abs, add, div, eqb, float, frshiftexp, ldshiftexp, leb, ltb, mul, normfr_mantissa, of_uint63, opp, sqrt, sub); `PrimInt63.*` (primitives: add, eqb, int, land, leb, lor, lsl, lsr, ltb, sub); `FloatAxioms`: Prim2SF_SF2Prim, Prim2SF_valid, SF2Prim_Prim2SF, add_spec, div_spec, ltb_spec, mul_spec, of_uint63_spec, opp_spec, sub_spec; `Uint63`: add_spec, eqb_correct, eqb_refl, leb_spec, lor_spec, lsl_spec, lsr_spec, ltb_spec, of_to_Z, sub_spec; `ClassicalDedekindReals.sig_forall_dec`; `ClassicalDedekindReals.sig_not_dec`; `Classical_Prop.classic`; `FunctionalExtensionality.functional_extensionality_dep`**
  C41_griewank_binary64, C41_griewank_any_order
* **`PrimFloat.*` (primitives: abs, add, div, eqb, float, frshiftexp, ldshiftexp, leb, ltb, mul, normfr_mantissa, of_uint63, opp, sqrt, sub); `PrimInt63.*` (primitives: add, eqb, int, land, leb, lor, lsl, lsr, ltb, sub); `FloatAxioms`: Prim2SF_SF2Prim, Prim2SF_valid, SF2Prim_Prim2SF, add_spec, div_spec, eqb_spec, leb_spec, ltb_spec, of_uint63_spec, opp_spec, sub_spec; `Uint63`: add_spec, eqb_correct, eqb_refl, leb_spec, lor_spec, lsl_spec, lsr_spec, ltb_spec, of_to_Z, sub_spec; `ClassicalDedekindReals.sig_forall_dec`; `ClassicalDedekindReals.sig_not_dec`; `Classical_Prop.classic`; `FunctionalExtensionality.functional_extensionality_dep`**
  C05_binary64, C06_binary64, C17_binary64
* **`PrimFloat.*` (primitives: abs, add, div, eqb, float, frshiftexp, ldshiftexp, leb, ltb, mul, normfr_mantissa, of_uint63, opp, sqrt, sub); `PrimInt63.*` (primitives: add, eqb, int, land, leb, lor, lsl, lsr, ltb, sub); `FloatAxioms`: Prim2SF_SF2Prim, Prim2SF_valid, SF2Prim_Prim2SF, add_spec, eqb_spec, leb_spec, ltb_spec, mul_spec, of_uint63_spec, opp_spec, sub_spec; `Uint63`: add_spec, eqb_correct, eqb_refl, leb_spec, lor_spec, lsl_spec, lsr_spec, ltb_spec, of_to_Z, sub_spec; `ClassicalDedekindReals.sig_forall_dec`; `ClassicalDedekindReals.sig_not_dec`; `Classical_Prop.classic`; `FunctionalExtensionality.functional_extensionality_dep`**
  C10_binary64
* **`PrimFloat.*` (primitives: abs, add, div, eqb, float, frshiftexp, ldshiftexp, leb, ltb, mul, normfr_mantissa, of_uint63, opp, sqrt, sub); `PrimInt63.*` (primitives: add, eqb, int, land, leb, lor, lsl, lsr, ltb, sub); `FloatAxioms`: Prim2SF_SF2Prim, Prim2SF_valid, SF2Prim_Prim2SF, abs_spec, add_spec, div_spec, leb_spec, mul_spec, of_uint63_spec, opp_spec, sub_spec; `Uint63`: add_spec, eqb_correct, eqb_refl, leb_spec, lor_spec, lsl_spec, lsr_spec, ltb_spec, of_to_Z, sub_spec; `ClassicalDedekindReals.sig_forall_dec`; `ClassicalDedekindReals.sig_not_dec`; `Classical_Prop.classic`; `FunctionalExtensionality.functional_extensionality_dep`**
  C29_hypotheses
* **`PrimFloat.*` (primitives: abs, add, div, eqb, float, frshiftexp, ldshiftexp, leb, ltb, mul, normfr_mantissa, of_uint63, opp, sqrt, sub); `PrimInt63.*` (primitives: add, eqb, int, land, leb, lor, lsl, lsr, ltb, sub); `FloatAxioms`: Prim2SF_SF2Prim, Prim2SF_valid, SF2Prim_Prim2SF, abs_spec, add_spec, div_spec, eqb_spec, leb_spec, ltb_spec, of_uint63_spec, opp_spec, sub_spec; `Uint63`: add_spec, eqb_correct, eqb_refl, leb_spec, lor_spec, lsl_spec, lsr_spec, ltb_spec, of_to_Z, sub_spec; `ClassicalDedekindReals.sig_forall_dec`; `ClassicalDedekindReals.sig_not_dec`; `Classical_Prop.classic`; `FunctionalExtensionality.functional_extensionality_dep`**
  C57_runs
