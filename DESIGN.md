# Design: a Rocq (Coq 8.16.1) model of slinderman/pyhawkes

## 1. What is modelled, and how

The model is a set of Gallina definitions, function by function, under
`rocq/theories/`. Files `M_*.v` hold model definitions only (each with a comment
citing the file and lines in /repo); `Spec_*.v` hold small mathematical
specifications written without reference to the model (they import only `Prelude.v`, `Arrays.v`
and `ExtReal.v`); `L_*.v` hold lemmas; `Props_*.v` hold the property theorems,
`Print Assumptions`, and a non-vacuity example (`..._nonvacuous` or `ex...`) beside them.

* **Numbers.** Python floats are modelled by the stdlib reals `R`, without rounding, overflow or
  underflow. Where NumPy's inf/nan semantics decide the behaviour (log of 0, 0/0, `logsumexp`,
  comparisons with nan) values are extended reals `er = Fin r | PInf | NInf | NaN` (`ExtReal.v`) with
  IEEE/NumPy rules. Where rounding itself can change what a user sees (`M_FloatParents`,
  `M_FloatConv`, `M_FloatMf`, `Spec_Float`), every operation is rounded to double precision with
  Flocq's `round`, and the theorem bounds the sizes so that overflow cannot occur.
  Counts are integers `Z` (int64 overflow not modelled, the cast to `uint32`
  is modelled as `mod 2^32`).
* **Arrays.** A NumPy array is a function of its indices together with explicit
  dimensions; `reshape/ravel` in C order are explicit index formulas; "in place" writes
  return the new array, except where the property is about aliasing: C40-C42 and C49 use a heap of mutable
  cells (`M_Heap.v`), caller-owned data arrays a buffer store (`M_Buffers.v`, `M_CtBuffers.v`), shared
  components an object store (`M_Given.v`).
* **Exceptions** are values (`result`), assertions return `Raise AssertionError`.
* **Randomness.** A draw is an oracle applied to a call identifier *and the distribution
  parameters the code requests*. A theorem "draws from D" says which
  parameters are requested and that the density of the requested law equals the
  conditional density in `Spec_Gibbs.v`/`Spec_Network.v`/`Spec_Joint.v`; statements about "every outcome" quantify over oracles that
  obey the support contract of the law (uniform in [0,1), gamma > 0, Dirichlet positive and
  summing to 1, multinomial non-negative, summing to n, and 0 where the probability is 0,
  Poisson non-negative). Statements about laws use law semantics instead: sums over outcomes weighted by
  multinomial or Poisson probabilities (`M_ParentsLaw.v`, `M_SimLaw.v`), uniforms as iterated integrals
  (`Spec_Invariance.v`, `Spec_LabelLaw.v`), or traces of draws (`M_CtGenerate.v`). NumPy's own multinomial puts
  whatever rounding leaves over in the last category; over the reals, where probabilities sum to exactly 1, there is
  nothing left over, and how far the doubles are from that is what the `M_FloatParents` theorems bound.
* **Crash points** (an exception or KeyboardInterrupt inside a method) are prefixes of the method's list of
  assignments (`M_Interrupt.v`, `M_InterruptVb.v`, `M_CtInterrupt.v`, `M_Query.v`).
* **Parallelism.** joblib columns and Cython `prange` loops are modelled by an arbitrary
  permutation of the loop iterations.
* **External functions** `gammaln`, `psi`, eigenvalues, BFGS/leastsq, FFT rounding are
  section variables or left out; FFT convolution is modelled by the exact "full"
  convolution it computes.

Assumed versions: Python 3, NumPy 1.13 <= v < 1.24 (the code uses `np.int`).

## 2. Trusted base

* Coq 8.16.1's kernel (`coqc`; `coqchk` can re-check).
* Axioms: only those of Coq's standard library reals, as printed by `Print Assumptions`
  under each property theorem:
  `ClassicalDedekindReals.sig_forall_dec`, `ClassicalDedekindReals.sig_not_dec`,
  `FunctionalExtensionality.functional_extensionality_dep`, and `Classical_Prop.classic`
  (through stdlib analysis lemmas). No other axioms; see section 5. The double-precision theorems use
  Flocq's definitions and lemmas, which add no axiom to that list.
* The reading of the Python/Cython sources: the tie between model and code is the citations.
* The contracts listed above for NumPy/SciPy calls.

## 3. Modelling and proof plan per property

| id | what is modelled | how it is proved |
|---|---|---|
| C01 | `create_basis`, `interpolate_basis` (np.interp, arange, linspace), identity basis | algebra on finite sums; cosine peak value 1 shows positive sums; refuted where an interpolated column vanishes |
| C02 | `convolve_with_basis` as the first T rows of the full convolution, then clip | re-indexing of sums, induction on T |
| C03 | same | exchange of sums, tail term non-negative |
| C04-C05 | `compute_rate` both branches, `data_list` | sum re-indexing |
| C06-C08 | `generate` as a fold over bins with a Poisson oracle | loop invariant: R[t'] = lambda0 + sum over processed bins; causality by induction |
| C09-C13 | `_poisson_log_likelihood`, `log_likelihood_single_process`, `add_data` minibatches | sums; C03 for the bound; extended reals for finiteness |
| C14-C19 | `DiscreteTimeParents`: sparse rows, Z, EZ, statistics, both samplers, both updates, vlb | multinomial contract; Gibbs inequality `ln x <= x-1` |
| C20-C24 | the parameter of every requested law | log-density identities for all points |
| C25-C28 | `logsumexp` accept rule over extended reals; serial and column-parallel sweeps | case analysis; column independence by induction over the sweep; permutation invariance |
| C29-C35 | SBM and Erdos-Renyi networks, constructors, Gibbs and mean-field updates | conjugacy identities, invariants over histories, refutations by witness |
| C36-C39 | mean-field/SVI updates | algebra, invariants by induction over histories |
| C40-C42, C49 | heap of arrays and references | frame/separation lemmas, refutation witnesses |
| C43, C46 | `add_data`/`pop` on the data list | case analysis |
| C44, C45 | `resample_model` as a step function of a state record with oracles | invariant by induction over the number of sweeps |
| C47, C55 | `log_posterior`, `compute_gradient` | `derivable_pt_lim`, concavity of ln |
| C48, C50-C54 | standard model | index algebra; induction over steps |
| C56, C57 | nonlinear nodes | algebra |
| C58-C65 | continuous-time helpers and model | induction over backward scan on sorted events; interval partition for inverse CDF; permutation invariance |
| C66-C71 | utilities, distributions, baselines | direct |
| C72 | constructor's environment logic | case analysis over environment values |
| C73 | batch and SGD network updates with their `update_*` flags | case analysis over flags and network kinds |
| C74 | nonlinear process as a list of nodes, `add_data`/`pop`/minibatches | invariant over histories |
| C75 | nonlinear objectives | convexity inequality point by point; witness for softplus |
| C76-C77 | continuous-time edge and weight updates | `same_law` identities, permutation of columns |
| C78 | continuous-time `add_data` checks | iff by case analysis |
| C79 | `_compute_expected_impulse`/grid | extended-real evaluation |
| C80 | `smooth`, `get_firing_rate`-style utilities | exchange of sums |
| C81-C82 | whole sweeps as a function (discrete / continuous) | unfolding: every component as function of old/new values |
| C83-C86 | variational lower bound (all shares, python and Cython routines), coordinate step | Gibbs inequality, strict concavity via lgamma/digamma contracts, induction over histories |
| C87-C89 | `log_prior`, `log_probability` of every component | algebra on log densities |
| C90 | whole joint density in `Spec_Joint.v`; every Gibbs update | each update's requested law is `same_law` with the joint as a function of its block |
| C91 | `M_Mixed.v`: resample_from_mf and initialize_from_gibbs of the gamma-mixture model, incl. the scalar parameters the latter leaves | requested laws and means read off the state; counterexamples for shared draws, self edges, default network, fixed network |
| C92 | `M_Mixed.v`: one object with Gibbs and variational state; seven kinds of calls | inductive reachability, one invariant (`mixed_ok`), every allowed call succeeds and preserves it |
| C93 | the block model's expected_* against a sum over all labelings (`Spec_Labels.v`) | induction on the number of nodes; exact error on the diagonal |
| C94 | `fit_with_bfgs` with scipy's minimiser as an arbitrary adaptive strategy of objective/gradient requests, callbacks mutating the model (`M_Fit.v`) | induction on the strategy; concavity of the log posterior row by row; derivative lemmas of C47 |
| C95 | `fit_with_bfgs_logspace`, same, through exp | same; chain rule (overflow of exp not modelled) |
| C96 | `fit_with_bfgs` of nonlinear nodes and processes, the optimiser's answer arbitrary (`M_Nonlinear.v`) | objective formula of C57; convexity of C75; NaN algebra for silent nodes |
| C97 | the whole adjacency update of the three weight models, with the uniforms averaged over (`M_Gibbs.v`, `M_Continuous.v`; `Spec_Invariance.v`) | the update is a row-major scan of single-edge conditionals (C25, C76); detailed balance of one edge, induction over the scan; Fubini-free iterated integrals; Euler's Gamma integral (`L_Euler.v`) for the mixture |
| C98 | the `expected_*` accessors of every variational object against integrals over densities (`Spec_Moments.v`) | Euler's integrals (`L_Euler.v`), differentiation under the integral in the shape parameter (`L_Moments.v`), stick-breaking induction for the Dirichlet (`L_Dirichlet.v`); diagonal refuted via C93 |
| C99 | every update of `ct_sweep` against one joint density of events, causes and parameters (`Spec_CtJoint.v`; `M_Continuous.v`) | sum over cause assignments = product of sums; uniforms leading to an assignment form a box (C59) whose volume is its share; complete-data log density decomposes by process and pair, then C23, C65, C76, C77; network via C90 (`Props_CtJoint.v`); refutations for several recordings |
| C100 | `resample_model` as the list of its assignments in program order, an interruption being any prefix (`M_Interrupt.v`); histories with interrupted sweeps | whole list = `sweep` of C44; each assignment preserves `usable`; a sweep does not read the old parents, so a complete sweep of a usable state restores C44 (`L_Interrupt.v`, `Props_Interrupt.v`); trial value A=1 of the serial sampler refutes the forbidden-edge part |
| C101 | NumPy's global generator as a stream with a position; forked workers copy the caller's position, each keeps its own; schedules are arbitrary (worker, column) lists (`M_Workers.v`) | positions of the draws computed for every schedule; in the calling process they are consecutive, giving the invariance of C97 with one stream; two forked workers read the same first number, and the combination of edges this excludes has positive posterior mass: false of the default parallel update (`L_Workers.v`, `Props_Workers.v`) |
| C102 | M_InitOwn: the argument's three forms, default standard model, re-adding the counts, background start, fit with any optimiser strategy, then the copy and (spike and slab) resampling of the parents | composes C94 (fit), C52 (copy), C44's parent resampling; the failing parts are refuted universally (features never read, one-bin minibatches give all-zero features, a largest self weight always becomes a self edge) |
| C103 | M_Network (mf_c_lp, mf_c_row, mf_update_c), Spec_LabelBound (sum over all labelings) | Gibbs' inequality per row after splitting off the row (L_LabelBound), concavity for step sizes below 1, induction over rows; counterexamples for the reported bound and for fixed sparsity |
| C104 | constructors of M_Network, M_MeanField, M_Continuous, M_Nonlinear; expected_m added | closed forms from the constructor models (block means of a constant under simplex labels; the no-data case of C76 gives the continuous-time edges); refuted for block weights (start uniform), edge probabilities (0.999) and ErdosRenyiModel with two or more nodes (cannot be built) |
| C105 | M_Parents.exact_weight_ss1 (parents.py 183-203), weight_ss1, M_Discrete.compute_rate | swap the sums over bins and basis functions, apply C03 (filtered mass) per basis function and the simplex g; the compensator identity from C04; refuted without the factor dt |
| C106 | the result-valued functions of M_Standard, M_Network, M_Nonlinear, M_Parents, M_Continuous, M_Dist | case analysis on every guard in source order; each theorem gives the class and the exact condition |
| C107 | M_Query: each query as the list of its assignments, an interrupted call a prefix | closed form of the state after n assignments (node by node for nonlinear processes), induction over histories; refuted on every model because nothing uses try/finally |
| C108 | M_InterruptVb: each step as the list of its assignments in program order (arrays filled in loops cell by cell), an interrupted step a prefix | the whole list equals M_MeanField's step; each assignment alone keeps the invariant, hence every prefix and every history; window arithmetic for sgd_offset |
| C109 | M_CtInit: the method with the least-squares optimiser as an oracle (contract: a point whose residuals are numbers and whose sum of squares is not larger than at the start), np.percentile (M_Standard) with scalar or matrix levels and NumPy broadcasting, state left behind by a failed call | stored rates/weights computed from the weights of the fitted model; edges counted above a linearly interpolated percentile by sorting; negative precisions give NaN residuals so the answer is non-negative, and positive when the start beats the zero response; hence params_ok; refuted: block networks with 1 < C <> K fail after the delay parameters were replaced, self edges switched on, the weakest edge always dropped |
| C110 | M_CtInterrupt: resample_model as the list of its assignments and assertions in program order, an interruption as a prefix | The whole list is ct_sweep (all intermediate states explicit); every prefix keeps the invariant of C45 except statistics = parents, which holds again once the parents are done; later sweeps ignore leftover parents and statistics; refuted: the statistics are zeros when interrupted before they are filled |
| C111 | parents.py 545-608 event by event, including the backward scan and its stopping index, the assertion of sample_discrete, and the K x K imp_ss broadcast by impulses.py 402-404 (M_CtReference) | induction over the backward scan and over the events; sample_discrete is an oracle that returns an index of positive weight; refuted for absent edges, simultaneous events and the impulse update that follows (Props_CtReference) |
| C112 | models.py 228-526 recomputed on extended reals: rate, gradient, np.diag product with its 0*inf, log and exp of the weights (M_StdFloat) | simulation of the real-valued steps of M_Standard by the float steps on positive weights, by induction over rows and histories; for a silent process the set {0, NaN} is an invariant of its background entry, and a bin without input makes the row NaN (Props_StdFloat) |
| C113 | `M_Buffers` (and `M_CtBuffers` for continuous time): a memory of arrays, data sets holding references (S, F; views for minibatches) beside copies (ts, Ss, Ns, Fs), each method reading what the program reads; events = caller writes and calls. | Lock-step simulation (induction over the history) against a reference model that copies every data set when it is added; the two exceptions are stated in general and refuted on an instance. |
| C114 | `M_Plot`: the values handed to matplotlib (arrows, image and colour limits, curves, stems, axis limits) by new drawings and by updates. | Direct for new drawings; induction over the list of models for a drawing updated through its handles; the misplaced events and limits, the missing axes and the stale scale are stated in general and refuted. |
| C115 | `M_SimLaw`: the loop of `generate` run on the distribution of np.random.poisson instead of on its values (expected value of any function of the outcome); `Spec_Simulation`: infinite sums over tables, Poisson probabilities. | Induction over bins shows the law is the sum over tables of the deterministic run weighted by the product of Poisson probabilities of the requested means; point masses and total mass by lemmas on Coquelicot series; equality with the likelihood when no basis function acts within a bin, refuted otherwise. |
| C116 | `M_Stability`: both tests, with np.linalg.eigvals and scipy.sparse.linalg.eigs as parameters under the contracts of `Spec_Stability` (all eigenvalues; one of largest modulus); expected counts come from the law of `M_SimLaw`. | `L_Perron` proves from scratch that a non-negative matrix without a real eigenvalue >= 1 contracts a positive vector (Neumann series, supremum and compactness); expected counts are shown to solve a linear recursion (induction over bins on affine functionals), bounded by the contraction and unbounded without it. |
| C117 | `M_ParentsLaw`: the multinomial generator of `M_Parents` replaced by its law; `Spec_Marginal` gives the joint probability of counts and attributions and the sum over all attributions. | Multinomial theorem by induction over the causes; sums over attributions of a product factor into products of sums; sparse rows against all bins; `C90`'s complete likelihood is shown to be the logarithm of the same joint. |
| C118 | `M_FloatParents`: the same computation with IEEE rounding (Flocq's `round radix2 (FLT_exp (-1074) 53) ZnearestE`, overflow to infinity in `Spec_Float`), summation order a parameter (a tree), the generator's acceptance test a parameter under the contract `lenient`. | Forward error analysis: induction over the summation tree (relative error of each addition, Bernoulli's inequality), monotonicity of rounding for entries within [0,1], products without overflow or underflow. |
| C119 | `M_FloatConv`: both conversions with every operation rounded (Flocq), np.arange's length and entries as NumPy computes them, np.histogram's check of the edges. | Error analysis of edges and event times against bin boundaries; the number of bins is right whether np.arange returns T or T+1 points; counting as in C66. Counterexamples evaluated with a rounding lemma. |
| C120 | `same_model s m m'` relates two models by a renaming `s` of the processes (Spec_Relabel gives the vocabulary); uses the existing models M_Discrete, M_Parents, M_Gibbs, M_Network, M_Prior, M_MeanField, M_Vlb | every sum over processes is invariant under a permutation of its index set (Permutation of `seq`), extended-real sums included, so no finiteness hypothesis is needed |
| C121 | draws of M_CtGenerate with their densities (Spec_CtSim) and the attributed density of Spec_CtJoint | induction on the cluster representation of C64: counts, normals and uniforms become rate, delay density and derivative of every event; late children refuted |
| C122 | M_Basis, M_Discrete, M_Parents, M_Gibbs, M_MeanField compared with themselves under the change of unit of Spec_Units | equivariance of each step: the factor c cancels between rates, densities and the bin width; induction over bins, data sets and coordinates |
| C123 | M_Continuous and M_CtGenerate compared with themselves under the change of unit of Spec_CtUnits | equivariance of every scan, statistic and update; induction over events, recordings and the cascade of the simulation; the fixed margin 1e-8 refutes the unrestricted claim |
| C124 | M_Rvs: rvs of every component as a value or exception and the random calls it makes | case analysis over components; the background rates' draw is fed to their own log_likelihood; every other component refutes the claim |
| C125 | M_Continuous compared with itself under a permutation (Spec_Relabel) of labels, parameters and statistics | induction over the scans, folds over events and recordings; sums over processes invariant under permutation |
| C126 | compute_rate and generate of M_Discrete, ct_model_rate and ct_integrated of M_Continuous, compared on two inputs | linearity and monotonicity of the causal convolution; window sums with a normalised basis; coupling of two simulations by induction over bins |
| C127 | M_FloatMf: parents.py 352-378 operation by operation with Flocq's double rounding, np.exp a parameter accurate to 2^-50, summation order a parameter | normalised rows of C118 composed with relative-error lemmas for the exponentials; refutation by underflow of exp(E ln lambda0) and 0/0 in the row of the first event |
| C128 | `M_LabelLaw`: the label loop of `M_Network.resample_c` with pybasicbayes' inverse-CDF sampler on one uniform per node; `Spec_LabelLaw`: sums over labellings, iterated integrals over uniforms, log joint of the labels | `L_LabelLaw`: mean of the sampler (piecewise constant integrals), scan of conditionals leaves the weights invariant; applied to the exact density proportional to the requests; one-node counterexample |
| C129 | M_Standard; features_ok, counts_ok, admissible, same_weights in Props_Ascent | derivative of the log posterior along the curve w*exp(e*g*w) traced by the step is the sum of (g*w)^2, so small steps climb; exact fixed points by C55's global maximum; a data set that a given step size overshoots by exp x >= x^3/27 |
| C130 | M_Standard.s_sgd_step, np.random.choice as a uniform choice (mean_choice); prior_times in Props_Ascent | closed form of the velocity of every row, mean over the data sets compared with the gradient of the model whose prior is counted n times; refutations at explicit posterior maxima |
| C131 | M_BasisArg.construct_with_basis on M_Basis, M_Sweep.construct, M_Discrete.generate | acceptance test read off the constructor; generate through C08; expected further events by C126 applied at the basis's bin width |
| C132 | M_Given: a store of background, impulse, weights, network and model objects that refer to each other by address (including the back-references to the model and network an object was built with, and the globals of the parallel sampler); constructor with optional objects; programs as lists of constructor/add_data/sweep calls | separation and refinement: an operation on model j touches only j's components (`on`), a sweep of a model with its own weights object is the ordinary sweep of its view, both lifted to all programs by induction; counterexamples for a shared network, a passed weights object, a passed impulse object, an unchecked background object |
| C133 | M_NetLl: log_likelihood of the three network classes on 3- and 4-tuples | block model: from C89 by substituting the argument for the state, ratio exact; fixed sparsity: Dirichlet plus Gamma densities; Erdos-Renyi: value ignores the argument (refuted) and equals the density of the network's own scale |
| C134 | M_Discrete/M_Sweep/M_MeanField/M_Vlb/M_Standard/M_Continuous with the data list rearranged (Spec_Order) | pooled statistics and sums of log likelihoods are permutation-invariant; element-wise parent resampling commutes with the rearrangement; induction on the history. Continuous time: only the last recording enters the background update (C23), so the order matters through which one is last (_partial, and _refuted otherwise) |
| C135 | M_Gibbs/M_Continuous/M_Network/M_ParentsLaw, uniform draws as iterated integrals (Spec_Invariance, Spec_LabelLaw) | the update is a composition of conditional draws (C25, C24, C76, C31); each conditional probability is in (0,1) unless the prior's is 0 or 1, so the product over the cells is positive; barred cells give 0. Attributions: C117's conditional law factorises over bins and causes |
| C136 | M_Gibbs/M_Continuous/M_Network/M_LabelLaw with uniform draws as iterated integrals (Spec_Invariance, Spec_LabelLaw); e n A is the mean after n updates by first-step recursion | Doeblin: one update reaches a fixed allowed network with probability at least eps from everywhere (C135 and a minimum over finitely many networks), so the range of e n shrinks by 1-eps per update; the posterior mean is invariant (C97, C128) and lies in the range |
| C137 | M_Discrete/M_Basis/M_Gibbs/M_Sweep/M_MeanField/M_Vlb unchanged; Spec_Cut says what one recording followed by another is and when the end of one is silent | the causal convolution of the whole restricted to the second part meets only zeros of the first (Rsum_app), so features and rates agree; likelihood by the tiling lemma of C11; a concrete model shows the silence is needed; for the sampler every statistic and likelihood an update reads is additive over the cut, and the draws for the rows of the whole are those of the parts one after the other |
| C138 | M_Continuous unchanged; Spec_CtCut says what one recording followed by another is and when the end of one is silent | the backward scan of the whole stops or falls through on the first part whatever its order of skips (back_scan_shift), the forward scan finds nothing usable there; likelihood by esum_app; statistics by the characterisation of C59; a concrete model shows the silence is needed |

### Contracts on `gammaln` and `psi`

`scipy.special.gammaln` and `psi` are universally quantified parameters (`lgam`, `psi`).
Theorems that only need algebra quantify over *every* pair of functions. The bound theorems
(C83-C86) take a hypothesis `gamma_functions lgam psi` (`Spec_Vlb.v`): a lower bound on the
Bregman gap of lgam (strict convexity with the right growth) and super-additivity of that gap
(the Dirichlet/Beta Kullback-Leibler divergence is non-negative). `L_Gamma.v` proves both of the true
functions: `Spec_Gamma.v` defines log Gamma and digamma by Gauss's limit, and `euler_gamma_functions` (Props_Gamma.v) proves the
limits' defining properties (derivative, functional equations, factorials, uniqueness by Bohr-Mollerup) and the contract.
The `*_euler` theorems are the bound theorems with those functions and no hypothesis. `L_Euler.v` proves that they are the logarithm of Euler's integral and its derivative (`euler_gamma_integral`,
`euler_beta_integral`), `L_Moments.v`/`L_Dirichlet.v` the means of x and ln x under the gamma, beta and Dirichlet
densities as integrals. What remains trusted is only that scipy's gammaln/psi compute these functions.

### Modelled and not modelled

| part of /repo | modelled | in | left out |
|---|---|---|---|
| `pyhawkes/models.py` | standard, spike-and-slab, gamma-mixture and continuous-time models: construction with every form of the `basis` argument and with components passed in, `add_data`, minibatches, `generate`, `compute_rate`, likelihoods, gradients, Gibbs sweeps, coordinate and SGD steps, interrupted steps, queries, `copy_sample`, `get/set_parameters`, `initialize_*`, log priors, `check_stability`, the numbers the plotting methods draw | M_Discrete, M_Standard, M_Fit, M_StdFloat, M_Sweep, M_MeanField, M_Vlb, M_Mixed, M_Prior, M_Continuous, M_CtGenerate, M_CtInit, M_InitOwn, M_BasisArg, M_Given, M_Heap, M_Buffers, M_CtBuffers, M_Interrupt, M_InterruptVb, M_CtInterrupt, M_Query, M_Stability, M_SimLaw, M_Plot | matplotlib calls themselves, printing, the iterations inside scipy's optimisers (the objective and gradient handed to them are modelled, their answer is arbitrary), eigenvalue algorithms (their contract is `Spec_Stability.spectrum`) |
| `pyhawkes/internals/parents.py`, `parent_updates.pyx` | parent samplers (Python, GSL, continuous reference), mean-field updates, bounds, statistics, `prange` order, the double-precision probabilities | M_Parents, M_ParentsLaw, M_CtReference, M_FloatParents, M_FloatMf | C-level memory safety, OpenMP scheduling itself |
| `pyhawkes/internals/weights.py`, `bias.py`, `impulses.py` | all Gibbs/mean-field/SGD updates, `log_prior`, `rvs`, bound shares, the unfinished block-model impulse responses | M_Gibbs, M_MeanField, M_Vlb, M_Prior, M_Rvs | `expected_log_likelihood` stubs |
| `pyhawkes/internals/network.py` | SBM, fixed-sparsity SBM, Erdos-Renyi (both classes), `log_likelihood`, the law of the label update | M_Network, M_LabelLaw, M_NetLl, M_Rvs | `LatentDistanceAdjacencyModel` (needs the external package `graphistician`); the methods with body `pass` (455-456, 793-794, 1003-1004) do nothing |
| `pyhawkes/internals/distributions.py` | Bernoulli, Gamma, Dirichlet, Beta, Discrete | M_Dist | - |
| `pyhawkes/internals/continuous_time_helpers.pyx` | event windows, rates, parent resampling, sufficient statistics | M_Continuous | - |
| `pyhawkes/internals/parallel_adjacency_resampling.py` | all functions, and where the workers' random numbers come from | M_Gibbs, M_Workers | pickling to worker processes |
| `pyhawkes/standard_models.py` | links, data, objectives, initialisation, fitting, `copy_*` | M_Nonlinear | optimiser iterations (the answer is arbitrary) |
| `pyhawkes/utils/*` | `basis.py`, `utils.py`, `poisson_process.py`; conversion in double precision | M_Basis, M_Utils, M_FloatConv | `profiling.py` |
| `examples/`, `experiments/`, `test/`, `data/` | - | - | everything |

## 4. Findings (properties false of the code as it stands)

Each line is a theorem ending in `_refuted`: a concrete execution of the model (checked line by
line against /repo) in which the English property fails. The true remainder of the property is
proved in the `_partial` theorems of the same number.

* C01: a cosine basis interpolated onto a coarse grid (B=5, dt=dt_max=1) has a column that is
  0/0 = NaN after normalisation.
* C06: with a basis that has an effect at lag 0, `generate` draws the counts of a bin from a rate that does not
  contain that bin's own effect but reports one that does.
* C14: more than 2^32 - 1 events in a bin wrap around in the `uint32` parent counts.
* C17: the call into the compiled mean-field routine has mismatching dtypes and raises.
* C23: the continuous-time background update uses the last data set only.
* C27: the mixture model attributes events to their own process although self-connections are forbidden.
* C30, C31, C90: forbidden self pairs are counted as observed non-edges in the update of p; the self pair
  is counted once or twice too often in the label update. Neither is the conditional of the joint.
* C32: labels given by the user raise ValueError, p or v given alone are dropped silently.
* C33, C85: the bound of a fixed-sparsity network is `None`, so the model's bound raises TypeError.
* C35, C89: Erdos-Renyi: mean field with the default scale raises, `log_probability` always raises,
  `ErdosRenyiModel` cannot be built for K >= 2.
* C36: SGD with fixed sparsity differs from the batch update. C38: step size 0 gives NaN.
* C41, C42, C49: `get_parameters` aliases arrays, `set_parameters` does not restore everything, reading
  `G` of the standard model divides the weights in place.
* C46: negative minibatch sizes are accepted (see the note).
* C50: a stray comma makes `initialize_with_gibbs`-style initialisation raise for K >= 2.
* C52: initialising the network model destroys the standard model passed in.
* C53: a silent process gets a NaN likelihood. C54: `check_stability` and `log_prior()` raise.
* C56, C57, C75: softplus link not inverted, data without a bias column raises, zero rows of G are NaN rather than
  uniform, softplus objective is not convex.
* C63: continuous-time `compute_rate` ignores weights and all but the last event of each parent.
* C65: the pooled NIG posterior loses the variation between data sets.
* C66: discrete/continuous round trip drops trailing silent processes. C67: file names can collide.
* C71: several distribution objects report wrong densities. C72: `OMP_NUM_THREADS` never enables the parallel path.
* C73: batch mean field tests `update_c` where it means `update_p`. C79: end points of the impulse grid are NaN.
* C83-C86: bound can fall when dt <> 1 (the background update is then never the maximiser), is NaN or never finite with
  self-connections disallowed, and counts the impulse prior's normaliser once instead of K*K times.
* C87-C88: an edge of probability 1 hides the adjacency prior, mixture prior is NaN without self-connections,
  the impulse normaliser has the wrong sign, `log_probability` leaves out most priors.
* C91: after `initialize_from_gibbs` all absent-edge weights share one draw; self edges appear although forbidden; a network
  the user fixed is overwritten; the default network raises AttributeError. C93: on self pairs with C >= 2 the expectations
  use two independent labels of one node.
* C94: `fit_with_bfgs` raises the 1e-32 placeholder of forbidden self weights to its lower bound 1e-16.
* C96: the objective of a node without events is NaN everywhere.
* C98, C103: the block model's variational means and its reported bound treat the two labels of a self pair as
  independent, so the reported bound can drop in an ascent step; fixed sparsity ignores its probabilities in the label update.
* C99, C134: the continuous-time background update uses the last recording only, so recordings cannot be reordered.
* C100, C110: an interrupted serial sampler can leave a forbidden edge; an interrupted parent update leaves statistics of zeros.
* C101: joblib workers fork with a copy of the random generator: edges in two columns can be decided by the same number.
* C102, C109: initialisation from a standard model needs an argument that is documented as optional, ignores custom bases, supplied
  features and the minibatch history, allows self edges, and (continuous time) can fail half-way.
* C104: variational parameters the constructor ignores: block weights, edge probabilities, Erdos-Renyi.
* C105: the exact weight statistic lacks a factor dt. C107: queries leave held-out data in the training data.
* C111: the Python reference sampler of continuous-time parents gives absent edges mass, fails on simultaneous events and
  leaves statistics of the wrong shape.
* C112: a silent process is stuck at rate 0 or NaN under gradient steps in log space.
* C113: caller-supplied arrays kept by reference. C114: plots mix bins and time units when dt <> 1.
* C115, C131: instantaneous bases: simulation and likelihood disagree; identity bases cannot simulate; foreign bases are accepted.
* C116: `check_stability` compares a real part when there are 100 or more processes.
* C119: conversion can put an event at the very end of its interval, which trips the assertion or moves a bin.
* C121: continuous-time simulation loses children born late or exactly at an event. C123: fixed 1e-8 margins whatever the unit.
* C124: most `rvs` methods return nothing, raise, or ignore `size`. C127: a vague prior underflows in the first mean-field step.
* C128: the label sweep counts self pairs twice or three times. C129, C130: step sizes and weights of gradient steps.
* C132: components passed to two models are shared and mostly ignored. C133: forms of argument `log_likelihood` refuses.

## 5. Assumptions per theorem

What `Print Assumptions` lists, for every theorem named in MANIFEST.json, grouped by set
(regenerate with `python3 tools/assumptions.py`; about five minutes). All are axioms of Coq's
standard library. `vcheck` additionally lists names of standard-library module parameters
(`Rdefinitions`, `ssrunder`), none of which is an axiom added here.

* **none (closed under the global context)** (22): C09_no_side_effects, C106_generators, C106_assign_into_non_array, C106_counts_exact, C107_copy_partial, C120_relabelled_exists, C124_block_impulses_refuted, C125_relabelled_exists, C15_statistics_meaning, C35_log_probability_refuted, C40_copy_is_snapshot, C40_original_kept, C40_copy_exists, C41_snapshot_refuted, C41_rebound_arrays_partial, C47_own_block, C49_weight_table_shape, C67_unique_names_partial, C67_unique_names_refuted, C67_pattern_meaning, C72_parallel_iff, C72_thread_variable_refuted.
* **classic** (1): C40_copy_updates_leave_original.
* **sig_forall_dec** (14): C104_nonlinear_penalty, C106_nonlinear_add_data, C106_erdos_renyi_update, C114_network_update, C120_network_view, C132_impulses_own_partial, C15_sufficient_statistics, C29_er_values, C49_W_and_bias_partial, C49_values, C56_add_data_partial, C56_add_data_without_bias_refuted, C71_beta_half_override_refuted, C74_fresh.
* **functional_extensionality_dep, sig_forall_dec** (163): C138_impulse_update, C138_bias_update_refuted, C01_identity_basis, C01_identity_is_identity, C02_filter_is_causal_convolution, C02_filter_empty_raises, C02_filter_causal, C02_filter_linear, C03_filtered_mass, C04_compute_rate, C04_compute_rate_filtered, C04_compute_rate_proc, C05_stored_rate, C05_stored_rate_index, C05_bad_index_raises, C06_generate_rate, C06_generate_draws_partial, C06_generate_draws_refuted, C07_generate_causal, C07_prefix_determined, C08_generate_keep, C08_generate_succeeds, C102_plain_data_partial, C104_block_weights_refuted, C104_edge_probability_refuted, C104_erdos_renyi_refuted, C104_initialised_background, C104_erdos_renyi_one_block, C105_exact_weight_ss, C105_expected_events, C105_units_refuted, C106_parent_sampler, C106_continuous_add_data, C106_gradient_with_self_weights, C106_initialise_from_standard, C106_rate_of_one_process, C106_parent_sampler_gsl, C106_block_tables, C106_counts, C106_parent_row, C106_constructors, C106_inversion_beyond_mass, C106_bernoulli, C106_no_processes, C108_initial, C109_threshold_per_pair, C109_single_process, C112_add_data_is_sound, C113_standard_add, C113_standard_overwritten, C113_ct_add, C114_network_drawing, C114_adjacency_drawing, C114_adjacency_update_partial, C114_adjacency_scale_refuted, C114_rates_drawing, C114_rates_update, C114_updated_drawing, C114_stem_in_bin_partial, C114_stem_position_refuted, C114_curve_span_refuted, C114_rates_without_axes_refuted, C114_other_recording_refuted, C120_rates, C120_rate_of_process, C120_add_data, C120_simulation, C120_parent_request, C122_identity_basis, C122_rates, C122_add_data, C122_simulation, C122_gibbs_requests, C123_parameter_requests, C123_add_data, C124_other_components_refuted, C124_size_ignored_refuted, C124_background_table, C125_requests, C125_add_data, C126_additive, C126_one_more_event, C126_monotone, C126_simulation_monotone, C126_ct_one_more_event, C13_added_data_ok, C131_weight_meaning_partial, C134_ct_background_refuted, C137_rates, C137_silence_needed, C14_one_parent_per_event, C14_counts_overflow_refuted, C15_resample_consistent, C16_no_absent_parents, C16_absent_edge_statistics, C17_expected_counts, C17_cython_same_array, C17_compiled_call_raises_refuted, C19_samplers_agree, C19_same_result, C20_no_data_prior, C23_only_last_data_set, C29_P_V_tables, C29_erdos_renyi_tables, C29_reading_P_V_is_pure, C29_values, C32_labels_rejected_refuted, C32_probability_discarded_refuted, C34_initial_valid, C34_expected_probability_valid, C35_scale_settings, C35_fixed_scale_kept, C35_mean_field_partial, C35_erdos_renyi_model_refuted, C37_slices_tile, C38_initial, C39_expected_weights, C42_round_trip_refuted, C42_eight_attributes_partial, C42_set_parameters, C42_shares_callers_arrays_refuted, C46_add_data_atomic, C46_invalid_rejected, C46_negative_minibatch_drops_data_refuted, C48_rate_is_hawkes, C48_reported_parameters, C49_reading_G_refuted, C50_always_raises_refuted, C50_one_process_partial, C52_valid_parameters, C52_some_edge_dropped, C52_standard_model_destroyed_refuted, C52_number_of_edges, C52_variational_expectations, C53_background_rate, C57_G_rows_sum_to_one_partial, C57_zero_rows_not_uniform_refuted, C57_fresh_model_G_refuted, C66_binning, C66_round_trip_partial, C66_round_trip_refuted, C69_inhomogeneous, C70_moving_average, C71_valid_params, C71_invalid_params_accepted_refuted, C71_dirichlet_needs_an_entry, C71_dirichlet_means, C80_binned_rate, C86_impulse_share_partial, C86_impulse_share_refuted, C90_attributable, C91_parameters_from_posterior, C91_network_from_posterior, C91_weights_independent, C91_shared_draw_refuted, C91_self_connections_refuted, C91_default_network_refuted, C91_after_initialisation, C91_from_gibbs_sample, C93_diagonal_error, C93_self_connection_refuted, C94_start_within_bounds, C137_added_data.
* **functional_extensionality_dep, sig_forall_dec, sig_not_dec** (16): C115_generate_law, C115_table_probability, C115_total_probability, C116_instantaneous_refuted, C117_resample_is_conditional, C121_slope, C123_simulation, C135_attributions, C70_cross_correlation, C70_zero_lag_diagonal, C70_scores, C70_smoothed_scores, C70_refused_lags, C80_smoothed_rate, C80_refused_grid, C80_smoothing_kernel.
* **classic, functional_extensionality_dep, sig_forall_dec, sig_not_dec** (434): C138_rates, C138_log_likelihood, C138_add_data, C138_parents, C138_silence_needed, C138_weights_update, C01_basis_columns_partial, C01_basis_fine_grid, C01_default_basis, C01_basis_unit_volume_refuted, C01_cosine_columns, C09_heldout_log_likelihood, C09_filtered_same, C09_zero_rate_is_NaN_refuted, C10_training_bounds_exact, C100_assignments_are_the_sweep, C100_interrupted_partial, C100_forbidden_edge_refuted, C101_in_process_invariant_partial, C101_continuous_in_process_invariant_partial, C101_same_worker_partial, C101_forked_workers_share_draws_refuted, C101_continuous_forked_workers_refuted, C102_fits_own_data_partial, C102_mixture_valid, C102_spike_slab_valid, C102_argument_required_refuted, C102_features_ignored_refuted, C102_minibatch_history_dropped_refuted, C102_self_edge_refuted, C103_row_maximises, C103_never_lowers, C103_euler, C103_reported_bound_drops_refuted, C103_fixed_sparsity_refuted, C104_block_model, C104_background_and_impulses, C104_weights, C104_erdos_renyi_partial, C104_continuous, C104_nonlinear_default_penalty, C106_standard_model, C106_block_models, C106_discrete, C106_erdos_renyi_bound, C106_mean_field_steps, C106_mean_field_parents, C106_bound_refused, C106_one_data_set, C106_conversions, C106_wrong_length_or_empty, C107_complete_queries, C107_heldout_partial, C107_heldout_histories_partial, C107_unchanged_refuted, C108_assignments_are_the_step, C108_interrupted, C108_resume, C108_window, C109_initialised_partial, C109_ready_to_sample, C109_wrong_model_refused, C109_fitting_gives_fitted, C109_failed_call_changes_model_refuted, C109_self_edge_refuted, C109_some_edge_dropped_refuted, C11_network_minibatch_invariance, C11_standard_minibatch_invariance, C110_assignments_are_the_sweep, C110_interrupted_partial, C110_resume_ignores_leftovers, C110_stale_statistics_refuted, C111_reference_request, C111_reference_sampler_partial, C111_agrees_with_the_compiled_sampler, C111_simultaneous_events_refuted, C111_absent_edge_refuted, C111_impulse_update_refuted, C112_positive_histories, C112_trained_from_background_partial, C112_silent_process_stuck_refuted, C112_silent_process_nan_refuted, C112_float_log_likelihood, C112_nan_weights_refused, C113_counts_may_be_reused, C113_filtered_may_be_reused_partial, C113_supplied_filtered_refuted, C113_standard_counts_refuted, C113_ct_resample, C113_ct_likelihood, C113_ct_labels_refuted, C115_simulation_matches_likelihood_partial, C115_simulation_matches_likelihood_refuted, C116_check_stability_partial, C116_stable_is_bounded, C116_ct_cascades_partial, C116_large_networks_partial, C116_ct_large_networks_partial, C116_large_networks_refuted, C117_likelihood_is_marginal, C117_joint_is_complete_likelihood, C117_model_likelihood, C118_probabilities_accurate, C118_never_refused, C119_round_trip_partial, C119_own_or_next_bin, C119_no_failure_refuted, C119_round_trip_refuted, C119_binning_refuted, C12_sum_over_data, C12_order_irrelevant, C12_index_list, C12_sum_over_processes, C120_likelihood, C120_gibbs_requests, C120_edge_update, C120_network_requests, C120_log_probability, C120_mf_step, C120_vlb, C121_complete_paths_partial, C121_scored_density, C121_late_children, C121_late_children_refuted, C121_lost_children_refuted, C122_cosine_basis, C122_likelihood, C122_parameter_requests, C122_edge_update, C122_parallel_edge_update, C122_mean_field, C123_rates_partial, C123_likelihood_partial, C123_parents_partial, C123_sweep_partial, C123_impulses, C123_margins_refuted, C124_bias_rvs_partial, C125_rates, C125_likelihood, C125_parents, C125_edge_update, C126_ct_monotone, C127_update_accurate_partial, C127_vague_prior_refuted, C128_sweep_law, C128_posterior_partial, C128_posterior_refuted, C129_small_steps_climb_partial, C129_stays_exactly_at_the_maximum, C129_fixed_step_refuted, C13_training_finite, C13_heldout_finite, C130_mean_direction_equal_lengths, C130_unbiased_partial, C130_unbiased_refuted, C130_unequal_lengths_refuted, C131_accepted, C131_object_or_hyperparameters, C131_cosine_simulates_partial, C131_identity_simulates_refuted, C131_weight_meaning_refuted, C132_each_model_as_if_alone, C132_unshared_models_are_independent, C132_sweeps_are_ordinary_partial, C132_constructor_checks, C132_shared_network_only_partial, C132_shared_network_refuted, C132_given_weights_ignore_the_network_refuted, C132_given_weights_refuted, C132_given_impulses_refuted, C132_background_unchecked_refuted, C133_block_model_partial, C133_block_model_ratio, C133_block_model_reads_its_argument, C133_fixed_sparsity, C133_argument_form_refuted, C133_erdos_renyi_own_scale_partial, C133_erdos_renyi_ignores_argument_refuted, C134_log_likelihood, C134_gibbs_histories, C134_gibbs_sweep, C134_mean_field, C134_vlb, C134_standard_model, C134_ct_log_likelihood, C134_ct_sweep_partial, C135_networks, C135_mixture_networks, C135_continuous_networks, C135_labels, C136_networks, C136_mixture_networks, C136_continuous_networks, C136_labels, C137_heldout, C137_training, C137_gibbs_histories, C137_gibbs_same_chain, C18_mean_field_optimal, C20_background_posterior, C21_weight_posterior, C21_exact_conditional, C22_impulse_posterior, C23_single_data_set_partial, C23_pools_all_data_sets_refuted, C24_mixture_edge_update, C24_mixture_edge_update_euler, C24_weight_model_update, C25_acceptance_rule, C25_both_impossible, C25_edges_from_posterior, C26_serial_parallel_agree, C26_no_data_prior, C27_no_self_connections_partial, C27_mixture_self_parent_refuted, C28_deterministic_edges, C30_probabilities_partial, C30_probabilities_no_self_partial, C30_counts_forbidden_pairs_refuted, C30_scales, C31_label_request_partial, C31_label_posterior_partial, C31_self_pair_counted_twice_refuted, C31_labels_in_range, C32_all_or_nothing, C33_sparsity_kept, C33_refuses_update, C33_bound_refuted, C34_variational_parameters_valid, C34_label_row_softmax, C35_scale_update, C35_mean_field_default_refuted, C36_components, C36_full_batch_step_partial, C36_fixed_sparsity_refuted, C36_stochastic_rule, C37_offsets, C38_parameters_positive_partial, C38_zero_step_refuted, C43_standard_heldout, C43_nonlinear_heldout, C43_continuous_heldout, C44_gibbs_history, C45_sweep, C45_construct, C45_step, C45_continuous_history, C46_valid_accepted, C47_gradient, C51_history_positive, C51_rows_independent, C53_maximises_homogeneous, C53_log_likelihood, C53_silent_process_is_NaN_refuted, C53_nonlinear_background_rate, C53_homogeneous_fit_is_mle, C53_silent_exponential_refuted, C54_not_callable_refuted, C54_log_prior_of_processes_partial, C55_concave, C55_stationary_is_global_maximum, C56_links_invert, C56_relu_link_refuted, C56_silent_rate_refuted, C57_objective, C57_rate_is_consistent, C57_linear_fit_positive, C57_default_node_objective_refuted, C58_rate_is_intensity, C58_weighted_impulses, C58_masked_impulses_sum, C59_parent_update, C59_probabilities, C59_schedule_independent, C59_serial_sampler_agrees, C60_sufficient_statistics, C61_transform, C61_impulse_is_density, C61_interval_probabilities, C61_total_mass_one, C61_compiled_constant, C61_compiled_impulse, C62_log_likelihood, C62_additive_and_local, C63_actual_value, C63_compute_rate_partial, C63_compute_rate_refuted, C64_generate, C65_actual_request, C65_posterior_iff_means_agree, C65_single_dataset_partial, C65_pooled_posterior_refuted, C65_draw_factorises, C68_logistic_range_and_monotone, C68_logit_inverts_logistic, C68_logistic_inverts_logit, C71_bernoulli_log_probability, C71_bernoulli_negentropy, C71_bernoulli_negentropy_refuted, C71_gamma_log_probability, C71_gamma_negentropy, C71_discrete_onehot_partial, C71_discrete_refuted, C71_discrete_negentropy, C71_dirichlet_single, C71_dirichlet_rows_partial, C71_beta_rows_refuted, C71_dirichlet_negentropy, C71_broadcast_negentropy_partial, C71_broadcast_negentropy_refuted, C71_gamma_negentropy_integral, C71_beta_negentropy_integral, C71_dirichlet_negentropy_integral, C71_dirichlet_boundary_refuted, C73_sgd_honours_update_p, C73_batch_ignores_update_p_refuted, C73_batch_changes_p_refuted, C74_nodes_in_lockstep, C75_objective_convex_partial, C75_softplus_not_convex_refuted, C76_edges_from_posterior, C76_serial_parallel_agree, C76_no_data_prior, C77_weight_posterior, C77_no_children_without_edge, C78_add_data_accepts, C79_impulse_grid_is_density_refuted, C79_interior_partial, C81_spike_and_slab_sweep, C81_mixture_sweep, C81_network_sweep, C82_continuous_sweep, C83_bound_increases_partial, C83_histories_monotone_partial, C83_bound_increases_euler_partial, C83_histories_monotone_euler_partial, C84_bias_maximises_partial, C84_impulses_maximise, C84_weights_maximise, C84_block_model_maximises, C84_erdos_renyi_maximises, C84_bias_dt_refuted, C84_bias_maximises_euler_partial, C84_impulses_maximise_euler, C84_weights_maximise_euler, C84_block_model_maximises_euler, C84_erdos_renyi_maximises_euler, euler_gamma_functions, C85_bound_finite_partial, C85_histories_finite_partial, C85_no_self_connections_refuted, C85_nan_refuted, C85_fixed_sparsity_raises_refuted, C86_bias_share, C86_erdos_renyi_share, C86_bias_share_euler, C86_erdos_renyi_share_euler, C86_bias_share_integral, C86_erdos_renyi_share_integral, C86_impulse_share_integral_partial, C86_weights_share_integral, C86_block_model_share_partial, C87_bias, C87_spike_and_slab_partial, C87_certain_edge_refuted, C87_mixture_partial, C87_mixture_no_self_refuted, C87_impulses_partial, C87_impulses_refuted, C88_value_partial, C88_differences_partial, C88_ignores_rates_refuted, C88_continuous_value_partial, C88_continuous_ignores_weights_refuted, C89_block_model_partial, C89_block_normaliser_refuted, C89_other_networks_raise_refuted, C90_parents, C90_background, C90_impulses, C90_weights, C90_edges, C90_mixture, C90_scales, C90_block_weights, C90_erdos_renyi, C90_probabilities_partial, C90_probabilities_refuted, C90_labels_partial, C90_labels_refuted, C91_fixed_network_refuted, C91_after_mean_field, C92_mixed_histories, C93_expectations_partial, C93_fixed_expectations, C93_expected_notp_partial, C94_fit_never_worse, C94_rows_independent, C94_rowwise_is_joint_optimum, C94_stationary_is_global_optimum, C94_gradient_of_objective, C94_self_weights_raised_refuted, C95_logspace_fit, C95_gradient_of_objective, C95_stationary_is_global_optimum, C96_node_fit_never_worse, C96_process_fit_never_worse, C96_local_optimum_is_global, C96_silent_node_refuted, C97_adjacency_update_invariant, C97_continuous_update_invariant, C97_mixture_update_exact, C98_background, C98_impulses, C98_weights, C98_erdos_renyi, C98_block_model_partial, C98_self_connection_refuted, C98_model, C98_block_weights, C99_parents, C99_marginal, C99_background_partial, C99_background_refuted, C99_weights, C99_impulses_partial, C99_impulses_refuted, C99_edges, C99_network_partial, C99_network_refuted, C99_erdos_renyi, C99_legal, C137_mean_field.
