# Formal model of sdepy in Rocq/Coq 8.16.1

Subject: `/repo/sdepy` (Python, NumPy, SciPy). The Python code is not run and not changed; it is transcribed by
hand, function by function, to Gallina in `rocq/theories/`. Each definition of a model file cites the lines it
transcribes, and says where it simplifies. `properties.jsonl` has the properties (C01 ...), `MANIFEST.json` the
theorems that prove each of them, `seeded/LOG.jsonl` the wrong programs the theorems were tested against.

Build: `cd rocq && coq_makefile -f _CoqProject -o Makefile && make -j4` (about 2 minutes).

## Layout

| files | content |
|---|---|
| `Base*.v` | exceptions as values, numbers (`BaseNum`), ordered times (`BaseOrd`, `BaseFloat`), arrays with broadcasting (`BaseArr`, `BaseNd`), basic indexing and reshaping (`BaseIdx`) |
| `M_*.v` | model of the code: definitions only |
| `S_*.v` | specifications used in the statements of theorems: definitions only, that do not use helpers of the model |
| `L_*.v` | lemmas |
| `P_*.v` | theorems `Cnn_...`, with `Print Assumptions` beneath, and `Example`s with concrete values beside them |

| model | code | properties |
|---|---|---|
| `M_paths` | `integration.py` 40-584, paths_generator | C01-C06 |
| `M_sde` | `integration.py` 596-1835, integrator, SDE, SDEs | C07-C11, C13 |
| `M_args` | `integration.py` 969-1113, 1683-1691, arguments of SDE classes | C12 |
| `M_presets` | `integration.py` 2056-2623, preset processes | C08, C09, C14-C17 |
| `M_true` | `infrastructure.py` 2157-2710, sources with memory | C18-C25, C62 |
| `M_source` | `infrastructure.py` 54-243, 1291-1633, 1881-2150, sources without memory | C26-C31 |
| `M_anti` | `infrastructure.py` 2047-2150, antithetic sources as classes | C74 |
| `M_integrate` | `infrastructure.py` 209-243, 1985-2003, `integration.py` 1071-1078, 1294-1423, 1838-1965, sources of an SDE, decorator | C66, C67 |
| `M_rv` | `infrastructure.py` 1640-1861, jump distributions | C32, C61 |
| `M_process` | `infrastructure.py` 290-1281, process, piecewise | C33-C43 |
| `M_mc` | `infrastructure.py` 2718-3312, montecarlo | C44-C49 |
| `M_kfun` | `kfun.py` 40-355, kfunc | C50-C52 |
| `M_short` | `shortcuts.py`, `_config.py` 13, `kfun.py` 357-363, signatures | C77 |
| `M_analytical` | `analytical.py` | C53-C60, C63, C65 |
| `M_std` | `analytical.py` 70, 176, 286, 434, 530, 630, standard deviations | C78 |
| `M_float` | arithmetic of NumPy's float64, `numpy` itself: see below | C79 |
| `M_result` | `integration.py` 736-738, 1193-1197, 1530-1553, the process returned | C82 |
| `M_dist` | `analytical.py` 74-108, 180-215, 288-333, 439-478, densities | C64, C65 |

## Conventions of the model

* **Exceptions** are values: a computation gives `Ok a` or `Err e`. Where a failure leaves something behind (montecarlo
  updates, sources with memory, the simulation engine) the state left is part of the result.
* **Loops** are structural recursion. The two `while` loops (adaptive steps, bisection) take fuel: theorems state
  that it is enough, or exclude its exhaustion.
* **Times of the engine** (`M_paths`, `M_sde`) are of any type with comparisons like those of IEEE 754 (`BaseOrd`: strict order,
  elements that compare false with everything being allowed). The laws are proved for Z, R and for Flocq's binary64
  (`BaseFloat`), so that C01-C06 hold for floating point times, NaN included.
* **Numbers** are of any type with operations (`Num`, no law assumed). Theorems that need algebra are on the standard
  library's reals; the others hold for any numbers, hence for floating point. The instance on Z is for running examples.
  Rounding errors are not modelled where reals are used (C79 uses binary64 numbers).
* **Arrays** are a shape and a total function from lists of indices to entries; only entries in bounds count.
  Broadcasting, reshaping, indexing, concatenation are defined from NumPy's documented rules and may fail as NumPy's do.
  Two arrays are the same (`aeq`) if they have the same shape and the same entries in bounds.
* **Random generators** are an abstract state and functions giving an array and the next state. What they promise
  (`poisson_ok`, `binomial_ok`, `rvs_ok`, ...: shapes, ranges) is a hypothesis of the theorems. Statements on laws
  are made in one of these ways: for any linear expectation over the variates drawn (C21, C22, C27); by the product of
  the probabilities of the draws made (C24); by integrals over the densities of the standard variates (C32, C59).
* **SciPy**: `scipy.special.ndtr` is any function with the needed properties, listed in the statements (and one function having
  them, `Phi0`, is built in `L_gauss`); `scipy.stats` distributions are scaled and shifted standard variates; `interp1d` is
  modelled for the kinds 'linear' and 'nearest'.

## Trusted base

* The Coq kernel (8.16.1) and `coqchk`.
* The transcription of Python to Gallina, and the semantics given to NumPy and SciPy functions (previous section and heads
  of the model files).
* Axioms, all of the standard library: `ClassicalDedekindReals.sig_forall_dec`, `ClassicalDedekindReals.sig_not_dec`,
  `FunctionalExtensionality.functional_extensionality_dep` (these three come with the reals), `Classical_Prop.classic` (from the theory of
  the reals and from Coquelicot). Theorems that do not involve reals are closed under the global context. The list, theorem by
  theorem, is at the end of this file. Coquelicot, mathcomp (through Coquelicot) and Flocq are used and add no axioms.
* No axioms, admitted proofs, functors or module types of our own; no kernel checks switched off.

## Properties: what is modelled, how it is proved

**Simulation engine, C01-C06** (`M_paths`; `S_paths`, `S_run`; `P_paths`). `pace`, `__call__`, `_generate_paths`, `_store_if_reached`
are a state machine on working times and values; `begin`, `next`, `store`, `end` are parameters that act on a state of their own
and may fail or shorten steps. A trace of events, that has no influence on results, records which of them
was called and with which times.
- C01, C02, C03: by induction on the grid (non adaptive steps) or on fuel (adaptive), with the invariant that the output points
  passed are those stored, and that the current time is before the next one. C03 holds for every choice of the next time.
- C04: by cases on the checks made before the first callback; the trace is empty if they fail.
- C05: the two passes are runs of the same machine on mirrored orders (`L_paths7`).
- C06: counters are computed from the trace. *Finding*: for two sided runs they cover both passes, while the documentation says
  forward part only (`C06_doc_forward_only_refuted`).

**Integration, C07-C11, C13** (`M_sde`; `S_sde`, `S_sdes`; `P_sde`, `P_sdes`). `euler_next`, `A`, `dZ`, `SDE` and `SDEs` methods,
packing of several equations in one array.
- C07: refinement (`L_paths8`): a run of the engine with depth 2 is the fold of one step over the merged grid; then the step is
  the Euler-Maruyama recursion entry by entry, with the order of evaluation of sources. `C07_run_completes`: with well behaved parts no error occurs.
- C08, C09: induction on the grid with an additive source, telescoping sums; `exp` and `ln` for C09.
- C10: *finding*: `SDEs` with log=True exponentiates the result twice (`C10_system_log_refuted`).
- C11: packing is a bijection (`L_pack`); a run of the system projected on a component is a run of the single equation (`L_sim`: simulation
  between two integrators).
- C13: an undeclared differential raises KeyError at the first step made.

**Arguments, C12** (`M_args`; `S_args`; `P_args`). Signatures are lists of parameters with optional defaults, any values; dictionaries are association lists.
Collection of defaults, consolidation, dispatch to methods and sources.

**Preset processes, C14-C17** (`M_presets`; `S_presets`; `P_presets`). The equations are functions of time and of arrays; runs are those of C07.
- C14: the run is that of the equation with the positive part; `Num_nan`, numbers with an invalid value that square roots of negative numbers give, shows
  that none arises.
- C15, C16: simulation between two integrators. C17: `info` is part of the state.

**Sources with memory, C18-C25, C62** (`M_true`; `S_true`, `S_true2`, `S_true3`; `P_true`-`P_true11`). The memory is a list of times and values; an
evaluation is a function of memory and generator. Histories are any sequences of evaluations, successful or not, by the source or by
references to it.
- C18, C19, C20, C62: invariant: times increase, values have the right shape, values are kept (hence the size of the memory, `P_true11`). Proved for any subclass whose
  `new_outside` and `new_inside` respect the shape and keep values (`disciplined`), then shown of the three sources. *Findings*: a time before all the stored ones but within
  tolerance of the last one changes its value (`C18_refuted`, needs t0 > 0); tolerance is one sided (`C20_refuted`); indexing of
  array results acts on times (`C62_refuted`).
- C21: values stored are linear combinations of the successive unit normal vectors drawn; the invariant is their Gram matrix.
- C22: the bridge with matrices A, B: algebra of matrices of functions (`L_true5`). *Finding*: a correlation given as a process fails (`C22_process`).
- C23, C24: invariant: counts do not decrease; the product of the probabilities of the draws made is the probability of the stored counts
  for a Poisson process, by the identity of `C24_split`.
- C25: joint invariant of the source and of its counts `dn`, both with memory: for adjacent times the recorded arrays are the jumps of
  each entry, in order, as many as `dn` counts, and their sum is the difference of values (`S_true3.accounts`). *Findings*: a jump of size zero may make a later evaluation fail (`C25_refuted`,
  exact condition in `C25_assertion`); jumps that cancel out are ignored between the two times (`C25_cancelling`).

**Sources, C26-C31** (`M_source`; `S_source`; `P_source`-`P_source3`). Parameters are arrays, callables or processes.
- C26, C27, C31: each draw is traced through the loop on times (`each`). C31 follows each jump variate to the entry it is used for, as a permutation.
- C28: matrix entries by cases; semidefinite by completing squares; a vector with negative quadratic form otherwise.
- C29: *finding*: a process of M values and M paths is accepted as correlation (`C29_paths_refuted`).
- C30: values of the two halves of the paths, for any source and transformation.

**Sources of an SDE and the decorator, C66, C67** (`M_integrate`; `S_integrate`; `P_source4`, `P_integrate`). A source is a function that draws, a Python function a list of parameters with defaults
and a body. Shapes: `can` is NumPy's broadcasting rule (`can_broadcasts`). Sources set up satisfy the hypotheses of `C07_run_completes`. *Finding*: a source of counts given to cpoisson_source may have fewer
components than it, but its counts then select components instead of paths (`C67_dn_refuted`: IndexError, `C67_dn_wrong_refuted`: wrong values).

**Convergence, C68** (`S_euler`; `L_euler`, `L_euler2`; `P_euler`, `P_euler2`). Consecutive points of a grid are at most h apart if timeline and steps leave no longer gap (`fine`), so a step adds
to the error at most the variation of the drift (mean value theorem) and multiplies it by 1 + L dt <= exp(L dt); the invariant is carried along both passes by `run_inv`. Means and variances: with the source made
by the class the values are a linear function of the draws (`linear_run`), whose moments obey recursions that are Euler schemes of the equations solved by the analytical mean and variance. Expected values are
linear functionals on functions of a random initial state of the generator; only the draws that are used need to be uncorrelated, so that finite examples exist (`C68_ex_moments`).

**Density of the Cox-Ingersoll-Ross process, C69** (`M_dist`; `S_cir`; `L_gamma`, `L_cir`; `P_cir`). `cir_pdf` takes the Bessel function as a parameter; `bessel_i` says it is the sum of its series, with the
gamma function of `euler_gamma` (Euler's integral). The density is then a series of gamma densities with Poisson weights. `series_half` exchanges sum and integral on the half line for series of positive continuous functions
bounded on compact intervals; it gives integral 1, mean, variance and Laplace transform. The forward equation comes from the differential equation of the power series (`bS_ode`), differentiated term by term.
The Laplace transform solves the backward equation with the coefficients of `cir_sde`, hence it is that of any law (`law1`, as `law2` for Heston). `C69_exists`: functions gamma and iv exist (by completeness of
the real numbers, and by the radius of convergence), and so do laws in a degenerate case. As for Heston, the existence of a law for other parameters is not proved.

**Jump distributions, C32, C61** (`M_rv`; `S_rv`; `P_rv`, `P_rv2`, `P_rv3`). Moments are limits of integrals (Coquelicot `is_RInt_gen`), the Gaussian integral is computed in `L_gauss`.
*Findings*: documented densities have `a` as a rate, while it is a scale; `exp_mean` of the double exponential is infinite for a >= 1 even if pa = 0, and raises
with more than one value of the parameters.

**Processes, C33-C43** (`M_process`; `S_process`; `P_process`-`P_process3`). *Findings*: one dimensional x (`C33_one_axis_refuted`), kind lost by rebase
(`C36_kind_lost_refuted`), three operands with two timelines (`C37_ternary_refuted`), out of range path indices (C38), start points of
piecewise processes (`C43_start_point_refuted`).

**Monte Carlo, C44-C49** (`M_mc`; `S_mc`; `P_mc`, `P_mc2`). An instance is a record of attributes; the list shared by indexed instances is separate. Moments
are updated as the code does (differences from a centre); the invariant is that they are power sums of all samples. *Findings*: C45, C48, C49, and kurtosis that is not in excess.

**kfunc, C50-C52** (`M_kfun`; `S_kfun`; `P_kfun`). A heap of instances; the wrapped class has any state and side effects.

**Analytical results, C53-C60, C63** (`M_analytical`; `S_analytical`, `S_chf`; `P_bs`, `P_moments`, `P_chf`, `P_heston`). Formulas on reals, or on complex numbers (Coquelicot), and for Black-Scholes on
numbers with infinities and nan. Moments: for any law that satisfies Dynkin's equation for the coefficients returned by the model of the `sde` methods, the mean and
variance are the formulas, by uniqueness for linear differential equations (`L_ode`); such a law exists.
Heston characteristic function (C57 modulus, C63): derivatives of complex functions are taken componentwise (`S_chf.cder`, calculus in `L_complex`). The argument of the
logarithm never meets the negative axis (`L_heston.no_cut`: otherwise exp(-dt) would have gone half a turn, and its modulus would be too small, since |Im d| < Re d); then the exponent satisfies
the Riccati equations, its real part is negative by comparison (`gronwall`), and the function solves the backward equation with the coefficients returned by the model of `sde`.

**Densities, C64, C65** (`M_dist`; `S_dist`; `P_dist`, `P_price`). A density or a distribution function gives a number, or nan (None). Integrals are Coquelicot's improper Riemann
integrals: changes of variable bring them to the standard normal (`L_gauss2.gen_subst`), whose Fourier transform is computed by differentiating in the frequency the integrals up to R
(`mean_normal_cos`). The forward equations use the coefficients returned by the model of `sde`; for two factors, whose sum is not a Markov process, any law of the pair (`S_chf.law2`) gives
the sum the characteristic function of hw2f_pdf. *Findings*: with sigma < 0, densities of wiener and lognorm are nan and bscall is minus the put.

**Densities from characteristic functions, C70** (`M_pdf`; `S_pdf`; `L_line`, `L_fourier`, `L_mix`, `L_expconv`, `L_jumppdf`, `L_hestonpdf`; `P_pdf`). `quad` is a parameter; `integrates` says it gives the value of any convergent integral on the line.
The inversion theorem is proved in `L_fourier` for continuous densities with a dominated transform (Parseval's formula with a Gaussian of small variance, Fubini on rectangles). Densities of jump diffusions are the sums over
the number of jumps (`jump_mixture`): each jump is a convolution, with a normal (completing the square) or an exponential density (`L_expconv`, by its differential equation); the series is integrated term by term
(`L_mix`). The modulus of the Heston characteristic function is at most C exp(-c|u|), by comparison in its Riccati equation (`L_hestonpdf`).

**Laws of simulated values, C71** (`M_jumps`; `S_law`; `L_law` to `L_law8`; `P_law`). A generator is described by the means `L d` over its random states with d draws left: `draws_law` says that the entries of an array drawn
are independent, of the law asked for, and independent of the state left (means of products are products of means); no linearity of `L`, and no measure theory, is assumed. `is_law` and the laws of normal, uniform, exponential and Poisson
variates are those of a generator built in `L_law8`: a stream of numbers, whose mean is found coordinate by coordinate (a supremum makes it a total function). The mean of the exponential of a step is found draw by draw, through the
code of wiener_source and cpoisson_source (the jumps of all entries with the same count are drawn together, `em_samples`), then step by step (`law_walk`).

**Joint Gaussian laws, C72** (`S_gval`; `L_gval` to `L_gval6`; `P_gval`). With the description of generators of C71, plus that of multivariate normal draws, the mean of the exponential of a combination of the increments of a step is
found through wiener_source, for each way correlations are given (`em_kind`); values at the points of the timeline are linear in all increments (`awalk_sum`: the effect at N of the increment at n is the product of 1 - k dt over the
steps between), so they are jointly Gaussian, with explicit means and covariances (`gauss_run`). Those are compared with the process' by bounding the products and the Riemann sum (`L_gval5`), with one constant for all grids.

**Diagnostics, C73** (`M_sde`, `M_presets`; `S_info`; `L_info`, `L_info2`; `P_info`). The same model with the flag on and off is compared step by step (`steps_same`, `pass_same`). Diagnostics are functions of the iteration
variables and of info that change info only: code that alters itervars or the sources from an info method is outside the model. What is counted along the run is a fold over the values at the start of each step (`run_folded`).
C71 holds for jump diffusions with and without diagnostics by `C73_values`.

**Time dependent parameters and antithetic paths, C74** (`M_anti`; `S_tval`; `L_tval` to `L_tval6`; `P_tval`). As for C72 the run is a walk with Gaussian increments, now with drift, decay and noise of each step read at the start of the step
and correlations at its middle, as the code does (`tgauss_run`, `tone_gaussian`, `thw_gaussian`). Means and covariances of the walk are sums over steps; they are compared with integrals step by step (`teffect_close`, `riemann_close`, `tmean_close`,
`tcov_close`), with a constant given by the bound on parameters and the time span (`vary_const`). Limits follow by uniform continuity. `C74_mean_ode`, `C74_cov_ode`, `C74_cov_times` and `C74_constant` check that the integrals compared with are
the moments of the process: they solve its moment equations. `continuous_array` and `array_varies` concern all times, also outside of the timeline, as parameters are functions on the whole line. With `odd_wiener_source`, the increments of
the paths have the covariances of `path_corr`; that values of paired paths add up to the sum of means is an equality for each state of the generator, not in law.

**Weak convergence of square root diffusions, C75** (`S_cirlaw`; `L_gop`, `L_cirop` to `L_cirop3`, `L_nrun`, `L_cirrun`, `L_weier`, `L_cirlim`; `P_cirlaw`). The equation is not Lipschitz and the computed values may be negative, so general theorems on
Euler schemes do not apply. A run is reduced to iterated Gaussian means of a function of one entry (`frun`, `ego_law`, `cir_steps`): `L_gop` gives means of continuous functions with exponential growth. The key bound (`itr_low`) is that the mean
of exp(-x/(w h)) stays bounded over all steps, for w = xi^2 + 1, which bounds negative parts by a multiple of h. Moments and exponentials follow by comparing a step with the exact semigroup (`mean_many`, `sq_many`, `lap_many`). For bounded
continuous functions, polynomials of exp(-x) are dense (`weierstrass`, by Bernstein polynomials proved here), and the error is controlled by the mean at infinity and by `itr_low` below zero (`phi_approx`, `phi_many`). `cir_simulation` asks that
each run returns, and `C75_runs` proves that it does.

**Weak convergence of Heston processes, C76** (`S_heslaw`; `L_hesop` to `L_hesop4`, `L_hesrun`, `L_hesgen`; `P_heslaw`). As for C75, with two entries of each run: the logarithm of the price and the variance. `pair_law` states the
joint law of two entries of a draw, correlated or not; `wiener_pair` and `odd_pair` carry it to the increments of the sources, plain and antithetic. `heston_run_values` reduces means of functions of both entries to iterated Gaussian means (`itr2`).
The exponential of the first entry is carried exactly by each step (`itr2_exp`), whatever the variance does: hence the exact mean of the price. Second order polynomials and exponentials are compared with the exact semigroup by `itr2_close`, where
the bound on negative values of C75 enters. The characteristic function is the solution of Riccati equations in complex numbers that `heston_log_chf` gives in closed form (`vchf_many`, `vchf_eq`). heston_process is reduced to full_heston_process by C15.
`L_hesgen` gives generators with the joint laws that are assumed.

**Standard deviations, C78** (`M_std`, `S_std`, `P_std`). The *_std functions as square roots of the models of *_var (`M_analytical`). The Coq function `sqrt` is 0 on negative numbers where NumPy gives nan: what is proved is that its argument is never negative
(so the square of the result is the variance). For the Heston process this is by the integral representation `C78_heston_integral` (derivative of an explicit primitive), whose integrand is a product of nonnegative terms when |rho| <= 1; `C78_ex_impossible` is negative with rho = 10.

**Shortcuts and documented parameters, C77** (`M_short`, `S_short`, `L_short`, `P_short`). `shortcuts` executes the assignments of shortcuts.py on a dictionary of names, with the wrappers chosen by KFUNC; objects are classes, functions, and
kfuncs of them made by the model of the decorator (`M_kfun`). Signatures of classes, methods and functions are tables copied from the source (with their lines); `documented` and `doc_shortcuts` are copied from docstrings and from doc/apidoc.rst, independently.
`instantiate` is the treatment of keywords by SDE.__init__, with the model of C12 (`M_args`), for the methods of each preset class. Given the setting there are finitely many names, checked by computation; keywords, values, calls and orders of sources are universally quantified
(`instance_spec` reduces them to the tables). The comment at shortcuts.py 75 ("None: ... kfunc_short wraps them") describes the setting 'shortcuts', see `C77_ex_none`.

**Rounding errors, C79** (`M_float`, `S_float`, `L_float`, `L_float2`, `L_float3`, `L_float4`, `P_float`). The integrator and the equations are generic in the type of numbers and of times: C79 runs the same model (`M_sde`, `M_presets`) on binary64 numbers,
with the operations of Flocq (round to nearest, ties to even; signed zeros, infinities and NaN included). An error recurrence per step, `err (n+1) = (1 + u) err n + c`, is carried along the grid (`const_float`, on `run_inv`), and bounded by `2 n c` if `n u <= 1/2`.
`C79_wiener` has two halves: any finite value is accurate, and values are finite if data are in range. `C79_exact_refuted` and `C79_ex_steps` are the well known 0.1 added ten times; `C79_ex_run` was compared with Python's floats.
Not covered: rounding in other processes, and the rounding of the random numbers themselves (a source is any with increments within `delta` of those of some path W). NumPy adds, subtracts and multiplies elementwise in this way; its exp and log are parameters.

**Means of functions, C80** (`S_mean`, `L_conv`, `L_tame`, `L_meanrun`, `L_meanlaw`, `L_est`, `P_mean`). No further code is modelled: these are statements on runs of `M_sde` and `M_presets` with the sources of `M_source`.
`L_conv` proves that the sum of two independent normal variates is normal, as an identity of integrals: for f of at most exponential growth, the mean over z of the mean over y of f(m + a z + b y) is the mean of f(m + sqrt(a^2 + b^2) z). The induction on steps (`sum_linear`) goes backward
from the last increment, and needs only that the mean over one draw of a product of functions of its entries is the product of their means (`normal_law`). `lin_law` is the result for linear equations; in the case of constant parameters its mean and variance do not depend on the steps.
`gaussian_ident` identifies its mean and variance with those of C74, whence the limits for short steps (`EN_close`: continuity in mean and variance). Prices are those of C65. Averages over paths: `average`, by expanding the square.
Functions that are not continuous: C81.

**Probabilities, C81** (`L_cok`, `P_prob`; `at_most` and `between` in `S_mean`). The induction on steps of C80 uses only that normal variates add up, as an identity of means, for the function in question: `cok` is the class of the functions for which they do.
`tame_cok` has those of at most exponential growth, `ind_cok` the indicator functions of half lines: the mean of one of them over a normal variate is its distribution function (`ind_mean`), and indicator functions are squeezed between continuous ones (`ramp`, `ind_conv`).
Limits for short steps need a positive variance (`cdf_close`).

**Statistics, C82** (`M_result`; `S_stat`; `L_stat`, `P_stat`; `spread` in `L_est`). The process returned by a call (`sde_process`) is an input of the models of C41, C42 and C44-C45: statistics are reduced to averages over paths of functions of the values (`pmean_is`, `pvar_is`, `cdf_is`, `chf_is`, `mc_is`),
and the means of these follow from the sums of products of C80 (`average`; `spread`, for squared deviations from an average). The mean over generator states is not assumed to be linear.
Entries of the result that are never stored (np.empty) are zero in the model: with `i0` 0 all are stored.

**Antithetic paths, C83** (`S_pair`; `L_pair`, `L_pair2`, `P_pair`, `P_pair2`). For linear equations, values on path n+j are those on path j with the opposite noise (`lin_pair`), so that a montecarlo object with `use='even'` (C44, C45) averages n independent values of (f(Y) + f(Y'))/2 (`pair_even`), where Y' is the mirror image of Y.
Means of products over mirrored values are bounded by Chebyshev's inequality for monotone functions (`opposite`, on the Gaussian integral), which gives the reduction of the error and the overstatement of the standard error with `use='all'`.

**Rounding errors of mean reverting processes, C84** (`S_float2`; `L_float5`, `P_float2`). The model of C79, with coefficients k(theta - x) computed from rounded values. The reference is any path with the values of the Euler scheme in exact arithmetic along the grid (`euler_path`), where the grid is described by its points (`next_point`), not by the model of paths;
one step (`ou_step_error`) contracts the distance to it if 0 <= k dt <= 2, up to new rounding errors (`grid_next`, for consecutive points, and `run_inv` for all steps). The same induction shows that values are finite for data in range (`ou_step_finite`, `stable_range`).

**Rounding errors of cumulated means, C85** (`S_float3`; `L_float6`, `P_float3`). The model of montecarlo (`M_mc`), whose definitions are for any numbers, with those of `M_float`; samples of the specification (`batch`, `values`) are for any numbers as well. Updates of a component reduce to a fold over the values of samples (`updates_mean`); errors of sums and of their division are bounded (`sum_error`, `mean_error`), and merging two means adds at most 12 u P to the larger of their errors (`cum_error`), since weights N/(N+M), M/(N+M) sum to 1.
The sum of a sample is from left to right, where NumPy adds in pairs or blocks, with smaller errors; only the mean is considered, not the other moments nor antithetic samples.

## Not modelled

Rounding (except in C79, C84, C85); data types and their conversions (an integer process truncates interpolated values and integrals); aliasing between views (except where stated);
warnings; representations; names and docstrings; errors of numerical quadrature;
the numerical `_exp_mean`; subclasses of kfunc classes; the quality of pseudo random numbers.

## Axioms, theorem by theorem

As shown by `Print Assumptions`. `-`: closed under the global context. `F`: `ClassicalDedekindReals.sig_forall_dec`, `N`: `ClassicalDedekindReals.sig_not_dec`, `C`: `Classical_Prop.classic`, `E`: `FunctionalExtensionality.functional_extensionality_dep`, all of the standard library.

| property | theorems |
|---|---|
| C01 | -: `C01_outputs_stored`, `C01_outputs_stored_depth2` |
| C02 | -: `C02_merged_grid` |
| C03 | -: `C03_adaptive_outputs`, `C03_bad_step_ends`, `C03_only_failure` |
| C04 | -: `C04_validation` |
| C05 | -: `C05_negative_index`, `C05_minus_len`, `C05_passes` |
| C06 | -: `C06_counters`, `C06_computed_steps`, `C06_doc_forward_only_refuted` |
| C07 | -: `C07_euler_recursion`, `C07_run_completes` |
| C08 | FNCE: `C08_wiener_exact` |
| C09 | FNCE: `C09_lognorm_exact` |
| C10 | -: `C10_start_linear`, `C10_start_system`; FNCE: `C10_start_log`, `C10_system_log_exponentiated`, `C10_system_log_refuted` |
| C11 | -: `C11_unpack_pack`, `C11_pack_succeeds`, `C11_pack_unpack`, `C11_components_partition`; FNCE: `C11_components`, `C11_uncoupled` |
| C12 | -: `C12_accepted_iff`, `C12_rejected`, `C12_values`, `C12_prepared`, `C12_prepare_fails`, `C12_dispatch`, `C12_systems` |
| C13 | -: `C13_undeclared_step`, `C13_run_declared`, `C13_undeclared_run`; FNCE: `C13_missing_is_zero` |
| C14 | FNCE: `C14_cir_run`, `C14_full_heston_run`, `C14_heston_run`, `C14_cir_no_nan`, `C14_full_heston_no_nan`, `C14_heston_no_nan`; FNE: `C14_cir_negative`, `C14_heston_negative` |
| C15 | -: `C15_heston_from_full`, `C15_full_from_heston`; FNCE: `C15_start_full`, `C15_start_heston` |
| C16 | -: `C16_hull_white_sum`; FNCE: `C16_one_factor` |
| C17 | -: `C17_counters`; FNCE: `C17_count_total`, `C17_rate_total` |
| C18 | FNCE: `C18_same_value`, `C18_calm`, `C18_initial`, `C18_increasing`, `C18_kept`, `C18_wiener`, `C18_poisson`, `C18_cpoisson`, `C18_refuted`, `C18_size`; -: `C18_compound_size` |
| C19 | FNCE: `C19_elements`, `C19_difference`, `C19_additive`, `C19_repeated` |
| C20 | FNCE: `C20_above`, `C20_below`, `C20_before`, `C20_exact_match`, `C20_exact_new`, `C20_refuted` |
| C21 | FNCE: `C21_brownian`, `C21_covariance` |
| C22 | FNCE: `C22_bridge`, `C22_covariance`, `C22_outside`, `C22_process`; FE: `C22_moments` |
| C23 | FNCE: `C23_counting`, `C23_unchanged`, `C23_values`, `C23_trials`, `C23_succeeds` |
| C24 | FNE: `C24_split`, `C24_poisson_total`; FE: `C24_binomial_total`; FNCE: `C24_arguments`, `C24_joint` |
| C25 | FNCE: `C25_conserved`, `C25_split`, `C25_assertion`, `C25_equal`, `C25_succeeds`, `C25_refuted`, `C25_cancelling` |
| C26 | FNCE: `C26_times`, `C26_wiener`, `C26_poisson`, `C26_poisson_zero`, `C26_poisson_succeeds`, `C26_cpoisson` |
| C27 | FNCE: `C27_uncorrelated`, `C27_constant`, `C27_variable`, `C27_covariance` |
| C28 | FNCE: `C28_matrix`, `C28_refused`, `C28_semidefinite` |
| C29 | FNCE: `C29_neither`, `C29_corr`, `C29_rho`, `C29_paths_refuted`; -: `C29_rho_at` |
| C30 | -: `C30_even_paths`, `C30_halves`, `C30_errors`, `C30_even`; FE: `C30_odd` |
| C31 | FNCE: `C31_jumps`, `C31_none`, `C31_number`, `C31_succeeds` |
| C32 | FNCE: `C32_exp_density`, `C32_exp_mean`, `C32_exp_var`, `C32_exp_std`, `C32_exp_exp_mean`, `C32_exp_new`, `C32_documented_scale_refuted`, `C32_double_mean`, `C32_double_var`, `C32_double_std`, `C32_double_exp_mean`, `C32_double_infinite`, `C32_double_infinite_refuted`, `C32_double_new`, `C32_double_moments`, `C32_double_one`, `C32_double_arrays_refuted`, `C32_uniform_exp_mean`, `C32_normal_density`, `C32_normal_moments`, `C32_normal_exp_mean` |
| C33 | -: `C33_succeeds`, `C33_error`, `C33_x`, `C33_v`, `C33_c`, `C33_shape`, `C33_copy`, `C33_invariant`, `C33_one_axis_refuted` |
| C34 | FNCE: `C34_shape`, `C34_linear`, `C34_nodes`, `C34_outside`, `C34_between`, `C34_constant`, `C34_nearest`; FE: `C34_unique` |
| C35 | FNCE: `C35_increments`, `C35_additive`, `C35_zero` |
| C36 | FNCE: `C36_any`, `C36_refused`, `C36_own`, `C36_finer`, `C36_kind_lost_refuted` |
| C37 | -: `C37_binary_succeeds`, `C37_binary`, `C37_unary`, `C37_array`, `C37_array_refused`, `C37_first`, `C37_ternary_refuted` |
| C38 | -: `C38_time`, `C38_time_int`, `C38_paths`, `C38_paths_out_of_range`, `C38_values`, `C38_value_int`, `C38_other` |
| C39 | -: `C39_insert`, `C39_remove`, `C39_axes` |
| C40 | FNCE: `C40_tdiff`, `C40_tdiff_one`, `C40_tint`, `C40_tint_tder`, `C40_tder_tint`, `C40_tint_zero` |
| C41 | FNCE: `C41_arguments`, `C41_cdf`, `C41_chf`, `C41_sample`; FE: `C41_range`, `C41_monotone`; FNE: `C41_modulus`, `C41_zero` |
| C42 | FNCE: `C42_paths`, `C42_time`, `C42_cumulative`, `C42_statistics`, `C42_extremes`, `C42_between_paths`, `C42_between_times`; -: `C42_no_paths`, `C42_values` |
| C43 | FNCE: `C43_forward`, `C43_backward`, `C43_mid`, `C43_start_point_refuted`; -: `C43_unknown` |
| C44 | FNCE: `C44_statistics`, `C44_stderr`, `C44_succeeds`, `C44_grouping` |
| C45 | FNCE: `C45_conservation`, `C45_given_edges`, `C45_equal_bins`, `C45_single`; -: `C45_leading_axes_refuted` |
| C46 | FNCE: `C46_even`, `C46_odd`, `C46_refused` |
| C47 | FNCE: `C47_density`, `C47_cdf`, `C47_pdf`, `C47_kde_derivative`, `C47_kde_range`, `C47_data` |
| C48 | FNCE: `C48_component`, `C48_no_histogram`, `C48_update_refused`, `C48_parent_lost`, `C48_stale` |
| C49 | FNCE: `C49_unusable`; -: `C49_atomic_refuted` |
| C50 | -: `C50_chain`, `C50_chain_override`, `C50_at_once`, `C50_function_made`, `C50_function_chain` |
| C51 | -: `C51_params_kept`, `C51_override_keeps`, `C51_same_result`, `C51_functions` |
| C52 | -: `C52_class`, `C52_class_error`, `C52_class_spec`, `C52_function`, `C52_decorator`, `C52_decorator_error`, `C52_routing`, `C52_params` |
| C53 | FNCE: `C53_parity`, `C53_domain` |
| C54 | FNCE: `C54_no_volatility` |
| C55 | FNCE: `C55_wiener`, `C55_oruh`, `C55_exists`; FNE: `C55_start` |
| C56 | FNCE: `C56_lognorm`, `C56_cir`, `C56_heston`, `C56_exists`, `C56_start` |
| C57 | FNE: `C57_wiener`; FNCE: `C57_lognorm`, `C57_merton`, `C57_kou`, `C57_at_0`, `C57_heston_at_0`, `C57_start`, `C57_bounded`, `C57_heston_bounded`, `C57_heston_start` |
| C58 | FNE: `C58_sum`; FNCE: `C58_law`, `C58_nonneg`; -: `C58_array`, `C58_vector`, `C58_scalar`, `C58_refused` |
| C59 | FNCE: `C59_merton`, `C59_kou`, `C59_jumps`, `C59_exists` |
| C60 | FNCE: `C60_call_delta`, `C60_put_delta`, `C60_equation` |
| C61 | FNCE: `C61_exp`, `C61_normal`, `C61_uniform`, `C61_double`, `C61_misfit`, `C61_fixed`, `C61_variable`, `C61_at_time`, `C61_rvmap`, `C61_rvmap_error`, `C61_jumps`, `C61_parameter`, `C61_process`, `C61_process_rv` |
| C62 | FNCE: `C62_shared`, `C62_generates`, `C62_array`, `C62_refuted` |
| C63 | FNCE: `C63_backward`, `C63_law`, `C63_exists` |
| C64 | FNCE: `C64_wiener`, `C64_oruh`, `C64_lognorm`, `C64_hw2f`, `C64_hw2f_law`, `C64_negative_refuted`, `C64_defined` |
| C65 | FNCE: `C65_call`, `C65_put`, `C65_negative_refuted` |
| C66 | -: `C66_inferred`, `C66_inferable`, `C66_refused`, `C66_consistent`, `C66_given`, `C66_call`, `C66_call_system`, `C66_untested`, `C66_call_defaults`, `C66_call_refused`; FNCE: `C66_run`, `C66_undeclared` |
| C67 | -: `C67_accepted`, `C67_fits`; FNCE: `C67_wiener`, `C67_bad_correlation`, `C67_intensity`, `C67_poisson`, `C67_cpoisson`, `C67_run`, `C67_jumps`, `C67_dn_refuted`, `C67_dn_wrong_refuted` |
| C68 | FE: `C68_fine_steps`, `C68_fine_timeline`; FNCE: `C68_pathwise`, `C68_converges`, `C68_wiener_moments`, `C68_lognorm_moments`, `C68_oruh_moments` |
| C69 | FNCE: `C69_density`, `C69_law`, `C69_exists` |
| C70 | FNE: `C70_shape`; FNCE: `C70_inversion`, `C70_merton`, `C70_merton_series`, `C70_kou`, `C70_heston`, `C70_heston_law` |
| C71 | FNCE: `C71_wiener`, `C71_wiener_chf`, `C71_lognorm`, `C71_lognorm_chf`, `C71_lognorm_moments`, `C71_merton`, `C71_merton_chf`, `C71_merton_mean`, `C71_kou`, `C71_kou_chf`, `C71_kou_mean` |
| C72 | FNCE: `C72_wiener`, `C72_lognorm`, `C72_lognorm_product`, `C72_oruh`, `C72_hull_white`, `C72_cov_closed`, `C72_variances`, `C72_oruh_chf`, `C72_hw2f_chf` |
| C73 | -: `C73_values`, `C73_outcome`, `C73_presets`, `C73_negative_y` |
| C74 | FNCE: `C74_wiener`, `C74_lognorm`, `C74_oruh`, `C74_hull_white`, `C74_wiener_limit`, `C74_lognorm_limit`, `C74_oruh_limit`, `C74_hull_white_limit`, `C74_cov_times`, `C74_constant`; FNE: `C74_mean_ode`, `C74_cov_ode` |
| C75 | FNCE: `C75_runs`, `C75_mean`, `C75_square`, `C75_var`, `C75_negative`, `C75_law`, `C75_converges` |
| C76 | FNCE: `C76_runs`, `C76_price`, `C76_log_mean`, `C76_log_square`, `C76_log_var`, `C76_log_chf`, `C76_variance_moments`, `C76_variance_negative` |
| C77 | -: `C77_setting`, `C77_classes`, `C77_class_kfuncs`, `C77_functions`, `C77_hw1f`, `C77_transparent`, `C77_instance`, `C77_documented`, `C77_all_documented`, `C77_consistent`, `C77_corresponding` |
| C78 | FNCE: `C78_heston_integral`, `C78_variances`, `C78_deviations`, `C78_closed`; FNE: `C78_start`, `C78_two_factors` |
| C79 | FNCE: `C79_wiener`, `C79_steps`, `C79_lognorm`, `C79_cir`, `C79_exact_refuted` |
| C80 | FNCE: `C80_wiener`, `C80_wiener_independent`, `C80_wiener_pdf`, `C80_wiener_average`, `C80_lognorm`, `C80_lognorm_independent`, `C80_lognorm_pdf`, `C80_lognorm_average`, `C80_call`, `C80_put`, `C80_call_average`, `C80_oruh_limit`, `C80_oruh`, `C80_wiener_limit`, `C80_lognorm_limit` |
| C81 | FNCE: `C81_wiener`, `C81_wiener_between`, `C81_wiener_joint`, `C81_wiener_fraction`, `C81_lognorm`, `C81_exercise`, `C81_lognorm_joint`, `C81_lognorm_fraction`, `C81_oruh_limit`, `C81_oruh`, `C81_wiener_limit`, `C81_lognorm_limit` |
| C82 | FNCE: `C82_result`, `C82_accepted`, `C82_wiener`, `C82_wiener_cdf`, `C82_wiener_chf`, `C82_wiener_montecarlo`, `C82_lognorm`, `C82_lognorm_cdf`, `C82_lognorm_montecarlo`, `C82_call`, `C82_put` |
| C83 | FNCE: `C83_accepted`, `C83_wiener_mirror`, `C83_lognorm_mirror`, `C83_wiener_even`, `C83_wiener_all`, `C83_wiener_exact`, `C83_lognorm_even`, `C83_lognorm_all`, `C83_call`, `C83_oruh_mirror`, `C83_wiener_var_mirror`, `C83_oruh_limit`, `C83_oruh`, `C83_put` |
| C84 | FNCE: `C84_oruh` |
| C85 | FNCE: `C85_mean`, `C85_accepted`, `C85_grouping`, `C85_exact_refuted` |
