{"id": "C01", "title": "Every output time point is stored exactly once, at exactly its own time", "statement": "Calling a paths_generator (hence any integrator) on a valid timeline with steps that are never shortened terminates without error; the backward and forward passes together write every entry i of the output, each value written is the working state whose current time is exactly timeline[i], and within a pass the entries are written in order, each exactly once.", "quantifier": "every strictly increasing timeline (including IEEE double time points), every steps specification, every valid i0 (positive or negative), every begin/next/store behaviour that leaves the proposed time point unchanged", "why_tests_cant": "the number of timelines, step grids and starting indices is unbounded; tests only run a few equally spaced grids", "anchors": ["sdepy/integration.py:paths_generator.__call__", "sdepy/integration.py:paths_generator._generate_paths", "sdepy/integration.py:paths_generator._store_if_reached"]}
{"id": "C02", "title": "The integration grid is exactly the merged grid", "statement": "The time points visited by a run are, going forwards, exactly the strictly increasing enumeration of the set of timeline points from timeline[i0] on together with the requested step points that lie between the first and the last point of the timeline (and not before timeline[i0]); going backwards, the mirror image. No other point is visited and none is skipped.", "quantifier": "every timeline, every finite list of requested step points (unsorted, duplicated, outside the range), every i0", "why_tests_cant": "merging, clipping and de-duplication interact; only a proof over all lists covers all coincidences of step and output points", "anchors": ["sdepy/integration.py:paths_generator.pace", "sdepy/integration.py:paths_generator.__call__"]}
{"id": "C03", "title": "Adaptive steps can never jump over an output point", "statement": "If next() shortens steps (adaptive stepping), every run that terminates normally still has written every output entry exactly once from a state at exactly that time, and visited times are strictly monotone; a step that does not move, moves backwards, or goes beyond the target time point ends the run with RuntimeError and is not stored.", "quantifier": "every adaptive choice of step lengths at every step, every number of steps", "why_tests_cant": "the choice of step sizes is an unbounded, state dependent history", "anchors": ["sdepy/integration.py:paths_generator._generate_paths", "sdepy/integration.py:paths_generator._store_if_reached", "sdepy/integration.py:paths_generator.next"]}
{"id": "C04", "title": "Invalid timelines and starting indices are rejected before anything runs", "statement": "The call raises ValueError exactly when the timeline is not one dimensional, or not strictly increasing (a NaN or a repeated or decreasing point), or has too few points for the depth; it raises IndexError exactly when the timeline is valid but i0 is not an index of it; in those cases no simulation method has been invoked.", "quantifier": "every timeline (any dimension, any doubles including NaN), every integer i0, every depth", "why_tests_cant": "rejection must hold for all malformed inputs, tests try a handful", "anchors": ["sdepy/integration.py:paths_generator.__call__"]}
{"id": "C05", "title": "Starting index conventions", "statement": "A negative i0 gives exactly the same output as i0 + len(timeline); the stored value at timeline[i0] is the initial state; i0 = 0 only integrates forwards, i0 = -1 (or len-1, when len > 1) only backwards, any other i0 does both starting twice from the same initial condition.", "quantifier": "every timeline and every i0", "why_tests_cant": "slicing with negative strides and negative indices has many corner cases (size 1, i0 = -len) that tests do not enumerate", "anchors": ["sdepy/integration.py:paths_generator.__call__"]}
{"id": "C06", "title": "Diagnostic counters", "statement": "After a run without shortened steps, info['computed_steps'] is the total number of integration steps performed and info['stored_steps'] the total number of output entries written by them (all entries except the initial ones). For two-sided runs both counters cover the backward and the forward pass together, contrary to the class documentation, which says that they pertain to the forward part only.", "quantifier": "every timeline, steps and i0", "why_tests_cant": "tests only look at one-sided runs", "anchors": ["sdepy/integration.py:paths_generator.__call__", "sdepy/integration.py:paths_generator._generate_paths"]}
{"id": "C07", "title": "Integration output is the Euler-Maruyama recursion", "statement": "The value returned at each timeline point is the Euler-Maruyama value: starting from the initial value at timeline[i0], for each pair of consecutive grid points t, t' (forwards or backwards) x' = x + sum over the differentials id returned by sde(t, x) of coefficient_id * source_id(t, t'-t), applied entry by entry; sources are evaluated exactly once per step, in ascending order of their id.", "quantifier": "every sde, set of sources, state of the random generator, timeline, steps and i0", "why_tests_cant": "tests compare statistics of a few SDEs within tolerance, not the recursion", "anchors": ["sdepy/integration.py:integrator.euler_next", "sdepy/integration.py:integrator.next", "sdepy/integration.py:SDE.A", "sdepy/integration.py:SDE.dZ", "sdepy/integration.py:SDE.begin", "sdepy/integration.py:SDE.store"]}
{"id": "C08", "title": "wiener_process does not depend on the integration steps", "statement": "With constant mu and sigma, and a dw source whose increments add up (a process or a source with memory), wiener_process gives at every output point x0 + mu*(t - t_i0) + sigma*(W(t) - W(t_i0)), whatever steps and whatever the other output points.", "quantifier": "every timeline, steps, i0, mu, sigma, x0 and every additive source", "why_tests_cant": "exactness is claimed for any steps, a test can only sample step counts", "anchors": ["sdepy/integration.py:wiener_SDE.sde", "sdepy/integration.py:integrator.euler_next"]}
{"id": "C09", "title": "lognorm_process is exact irrespective of the integration steps", "statement": "With constant mu and sigma, x0 > 0, and an additive dw source, lognorm_process gives at every output point x0*exp((mu - sigma^2/2)*(t - t_i0) + sigma*(W(t) - W(t_i0))), whatever steps, as stated in the quick guide; in particular values are strictly positive and equal x0 at t_i0.", "quantifier": "every timeline, steps, i0, mu, sigma, x0 > 0 and every additive source", "why_tests_cant": "exactness is claimed for any number and size of steps", "anchors": ["sdepy/integration.py:lognorm_SDE.sde", "sdepy/integration.py:SDE.begin", "sdepy/integration.py:SDE.exit"]}
{"id": "C10", "title": "Initial values come back unchanged, in linear and log mode", "statement": "For an SDE the output at timeline[i0] equals the x0 given, both with log=False and, for x0 > 0, with log=True. For SDEs with log=False each component returns its own x0. For SDEs with log=True this fails: the result is exponentiated twice and exp(x0) is returned.", "quantifier": "every x0, number of equations, timeline and i0", "why_tests_cant": "tests do not exercise SDEs with log=True; the claim is for every initial value", "anchors": ["sdepy/integration.py:SDE.begin", "sdepy/integration.py:SDE.exit", "sdepy/integration.py:SDE.init", "sdepy/integration.py:SDEs.init", "sdepy/integration.py:SDEs.result"]}
{"id": "C11", "title": "Multi-equation systems: packing is faithful and equations do not leak", "statement": "Packing q arrays into the working array and unpacking gives back the same q arrays, and vice versa; in a system of q equations component i of the result follows the Euler recursion of equation i with slice i of each source; when equation i does not refer to the other components, component i is the same path that the single equation would give with that slice of the sources.", "quantifier": "every q >= 1, values shape, number of paths, equations and sources", "why_tests_cant": "holds for every q and shape, tests use q = 2, 3", "anchors": ["sdepy/integration.py:SDEs.pack", "sdepy/integration.py:SDEs.unpack", "sdepy/integration.py:SDEs.A", "sdepy/integration.py:SDEs.shapes"]}
{"id": "C12", "title": "SDE keyword arguments are accepted exactly when they are known", "statement": "Instantiating an SDE succeeds in argument consolidation exactly when every keyword given is a parameter of sde, init, more or of the setup method of one of the sources, every such parameter has a default or is given, and no parameter is declared twice with different defaults; otherwise TypeError. On success each parameter has the given value if given, its default otherwise, and each of sde, init, more and source setup methods receives exactly its own parameters.", "quantifier": "every collection of signatures and every keyword dictionary", "why_tests_cant": "signatures are user supplied; unboundedly many combinations", "anchors": ["sdepy/integration.py:SDE._inspect_args_defaults", "sdepy/integration.py:SDE._consolidate_args", "sdepy/integration.py:SDE._get_args"]}
{"id": "C13", "title": "Undeclared differentials are rejected", "statement": "If sde returns a coefficient for a differential that is not one of the declared sources the step raises KeyError and no value is produced; coefficients missing from the returned dictionary count as zero.", "quantifier": "every returned dictionary and every set of sources", "why_tests_cant": "dictionaries are user supplied and may vary with the step", "anchors": ["sdepy/integration.py:SDE._check_sde_values", "sdepy/integration.py:SDEs.A", "sdepy/integration.py:integrator.euler_next"]}
{"id": "C14", "title": "Square root diffusions never see a negative argument", "statement": "In cox_ingersoll_ross_process, full_heston_process and heston_process the argument of every square root is non-negative at every step of every path even when the simulated variance goes negative; where it is negative or zero the diffusion terms driven by it vanish and the drift pulls it back towards theta (for positive k, theta).", "quantifier": "every value of the working state, every parameter value", "why_tests_cant": "the sign of the state depends on unbounded random histories", "anchors": ["sdepy/integration.py:cox_ingersoll_ross_SDE.sde", "sdepy/integration.py:full_heston_SDE.sde", "sdepy/integration.py:heston_SDE.sde"]}
{"id": "C15", "title": "heston_process is the first component of full_heston_process", "statement": "With the same parameters and the same source values, heston_process returns at every output point the same x as full_heston_process; both return exactly x0 at timeline[i0].", "quantifier": "every timeline, steps, parameters, source values", "why_tests_cant": "equality for every history of random increments", "anchors": ["sdepy/integration.py:heston_SDE", "sdepy/integration.py:full_heston_SDE"]}
{"id": "C16", "title": "Hull-White processes are sums of Ornstein-Uhlenbeck factors", "statement": "hull_white_process with F factors returns at every output point the sum over factors of the Ornstein-Uhlenbeck recursions with the respective parameters and source slices; with one factor it coincides with ornstein_uhlenbeck_process.", "quantifier": "every F >= 1, parameters, source values, timeline and steps", "why_tests_cant": "every number of factors and every history", "anchors": ["sdepy/integration.py:hull_white_SDE", "sdepy/integration.py:ornstein_uhlenbeck_SDE"]}
{"id": "C17", "title": "Jump counters", "statement": "For jumpdiff_process integrated in one direction, info['jump_count'] is the sum over all integration steps of the number of jumps realized by the source, per value and path, and info['jump_rate'] weights it per output interval.", "quantifier": "every number of steps and every realization of jumps", "why_tests_cant": "accumulation over unbounded histories", "anchors": ["sdepy/integration.py:jumpdiff_SDE.info_begin", "sdepy/integration.py:jumpdiff_SDE.info_next", "sdepy/integration.py:jumpdiff_SDE.info_end"]}
{"id": "C18", "title": "A source with memory never changes its mind", "statement": "Once a source with memory has returned a value at time t, any later evaluation at the same t returns the same value without generating anything, whatever evaluations (at any times, in any order, through the source or through an indexed reference to it) happened in between, except for times before all stored ones yet within relative tolerance rtol of the last one: there are none if rtol = 0, or if t0 = 0 and rtol < 1, and with t0 > 0 and rtol > 0 the answer at such a time does change; the value at t0 is always z0; the stored time points are strictly increasing at all times, never dropped.", "quantifier": "every finite sequence of evaluations at arbitrary times, every behaviour of the random generator", "why_tests_cant": "the property ranges over all query histories", "anchors": ["sdepy/infrastructure.py:true_source._retrieve_old_or_generate_new", "sdepy/infrastructure.py:true_source.__call__", "sdepy/infrastructure.py:true_source.__getitem__"]}
{"id": "C19", "title": "Increments of a source with memory add up", "statement": "dz(t, dt) equals dz(t+dt) - dz(t); for any a, b, dz(t, a) + dz(t+a, b) equals dz(t, a+b), even if other evaluations are interleaved; array arguments give element by element the values obtained from scalar evaluations.", "quantifier": "every query history, every t, a, b", "why_tests_cant": "the property ranges over all query histories", "anchors": ["sdepy/infrastructure.py:true_source.__call__", "sdepy/infrastructure.py:true_source._retrieve_old_or_generate_new"]}
{"id": "C20", "title": "Tolerance of time matching is one sided", "statement": "A time within relative tolerance above the closest stored time below it is answered with the stored value without generating anything; a time just below a stored time is not matched with it: a new realization is generated, contrary to the documented meaning of rtol. With rtol = 0 a stored time is matched exactly when it is equal.", "quantifier": "every memory content and time", "why_tests_cant": "boundary behaviour for every memory content", "anchors": ["sdepy/infrastructure.py:true_source._retrieve_old_or_generate_new"]}
{"id": "C21", "title": "true_wiener_source realizes exactly Brownian motion whatever the order of evaluation", "statement": "With constant correlation matrix C, after any sequence of evaluations, the values stored at times s and t are z0 plus jointly Gaussian variates with covariance between component i at s and component j at t equal to C_ij * min(|s-t0|, |t-t0|) if s and t are on the same side of t0 and 0 otherwise; the internal assertions on the ordering of times never fail.", "quantifier": "every finite sequence of evaluation times, on both sides of t0, in any order; every correlation matrix", "why_tests_cant": "a distributional claim for all histories; statistical tests sample a few histories with 1 percent tolerance", "anchors": ["sdepy/infrastructure.py:true_wiener_source.new_inside", "sdepy/infrastructure.py:true_wiener_source.new_outside"]}
{"id": "C22", "title": "Conditional simulation with time dependent correlations matches the documented covariances", "statement": "Given w(t1), w(t2) with increment covariance A+B, the value generated at t1 < s < t2 has cov(w(s)-w(t1)) = A, cov(w(t2)-w(s)) = B, with w(s)-w(t1) uncorrelated from w(t1) and w(t2)-w(s) uncorrelated from w(s), as documented, for A, B symmetric and A+B invertible; the covariance Z A it draws from is symmetric. A correlation given as a process (values with a paths axis) makes evaluations strictly between stored times fail.", "quantifier": "every dimension, every symmetric A and B with A+B invertible", "why_tests_cant": "matrix identity in every dimension", "anchors": ["sdepy/infrastructure.py:true_wiener_source.new_inside"]}
{"id": "C23", "title": "true_poisson_source paths are counting paths", "statement": "After any sequence of evaluations, for stored times s <= t the count at s is not greater than the count at t, in every component and path; the number of trials passed to the binomial generator is never negative and its success probability is in (0, 1); counts do not change where the neighbouring counts agree. With a non-negative intensity evaluations do not fail, save for arguments that do not broadcast.", "quantifier": "every query history, every behaviour of the random generator within its contract (non-negative Poisson variates, binomial variates between 0 and n)", "why_tests_cant": "the property ranges over all query histories", "anchors": ["sdepy/infrastructure.py:true_poisson_source.new_inside", "sdepy/infrastructure.py:true_poisson_source.new_outside"]}
{"id": "C24", "title": "Poisson bridge is exact in distribution", "statement": "If the count on [t1, t2] is Poisson with intensity lam and it is split at s with the binomial law used by true_poisson_source, then the counts on [t1, s] and [s, t2] are independent Poisson variates with parameters lam*(s-t1) and lam*(t2-s): the joint probabilities factorize for all pairs of counts. With constant intensity, after evaluations in any order the probability of all the draws made is the probability that a Poisson process takes the stored values.", "quantifier": "every pair of counts, every lam > 0 and t1 < s < t2", "why_tests_cant": "distributional identity over all counts", "anchors": ["sdepy/infrastructure.py:true_poisson_source.new_inside"]}
{"id": "C25", "title": "true_cpoisson_source conserves jumps when intervals are split", "statement": "After any sequence of evaluations, for adjacent stored times the difference of stored values is the sum of the recorded jump sizes of that interval, their number is the number of jumps counted by dn on that interval, and splitting an interval partitions the recorded jumps in order without loss or duplication. An evaluation between adjacent stored times with different values fails with AssertionError exactly if, before or after the new time, the largest number of jumps of an entry is not the largest number of jumps of size different from zero; so all evaluations succeed if jumps are never zero, and may fail otherwise. If the values at adjacent stored times are equal for all entries, even if jumps that cancel out occurred, evaluations in between give that value and store nothing, in disagreement with the jumps counted by dn.", "quantifier": "every query history, every number of jumps and jump sizes", "why_tests_cant": "the property ranges over all histories and all jump counts", "anchors": ["sdepy/infrastructure.py:true_cpoisson_source.new_inside", "sdepy/infrastructure.py:true_cpoisson_source.new_outside", "sdepy/infrastructure.py:true_cpoisson_source._encode_y", "sdepy/infrastructure.py:true_cpoisson_source._decode_y"]}
{"id": "C26", "title": "Source values vanish on empty intervals and have the documented shape", "statement": "For wiener, poisson and compound poisson sources the returned array has shape (t + dt).shape + vshape + (paths,), and is zero wherever dt = 0; Poisson counts have the sign of dt.", "quantifier": "every broadcastable t, dt shapes, vshape, paths, and random generator behaviour", "why_tests_cant": "all shapes", "anchors": ["sdepy/infrastructure.py:wiener_source.__call__", "sdepy/infrastructure.py:poisson_source.__call__", "sdepy/infrastructure.py:cpoisson_source.__call__"]}
{"id": "C27", "title": "Wiener increments have covariance corr*|dt|", "statement": "The increment over dt is sqrt(|dt|) times a standard multivariate normal draw of the generator with covariance corr evaluated at the mid point t + dt/2, so that its covariance matrix is corr(t + dt/2)*|dt|; each time point and path uses its own draw.", "quantifier": "every correlation matrix, t, dt", "why_tests_cant": "identity for all dt, and for all time dependences", "anchors": ["sdepy/infrastructure.py:wiener_source.__call__"]}
{"id": "C28", "title": "rho parameters translate to valid correlation matrices", "statement": "A rho of size n gives a 2n x 2n matrix that is symmetric with unit diagonal, has rho[i] linking components i and n+i and zero elsewhere off the diagonal; it is positive semidefinite whenever all |rho[i]| <= 1 and fails to be whenever some |rho[i]| > 1.", "quantifier": "every n and rho vector", "why_tests_cant": "every dimension", "anchors": ["sdepy/infrastructure.py:_const_rho_to_corr", "sdepy/infrastructure.py:_get_corr_matrix"]}
{"id": "C29", "title": "corr and rho are validated against the values shape", "statement": "Constructing a Wiener source with a corr succeeds only if the correlation matrix, as far as its shape can be known at construction, is M x M or M x M x 1, where M is the last dimension of vshape; with a rho, only if the matrix it stands for is; a scalar vshape with a corr or rho, a non square or wrong sized matrix raises ValueError. If both corr and rho are given, rho is ignored. Path dependent correlations are to be refused.", "quantifier": "every vshape, corr shape and rho shape", "why_tests_cant": "all shapes", "anchors": ["sdepy/infrastructure.py:_get_corr_matrix", "sdepy/infrastructure.py:wiener_source.__init__"]}
{"id": "C30", "title": "Antithetic sources", "statement": "odd_wiener_source returns values whose second half of paths is the exact opposite of the first half (sum over paths is zero for every draw); even sources return second half equal to the first; an odd number of paths is rejected with ValueError.", "quantifier": "every even number of paths, every draw of the base source", "why_tests_cant": "exact identity for every draw", "anchors": ["sdepy/infrastructure.py:_antithetics", "sdepy/infrastructure.py:odd_wiener_source", "sdepy/infrastructure.py:even_poisson_source", "sdepy/infrastructure.py:even_cpoisson_source"]}
{"id": "C31", "title": "Compound Poisson values are sums of the recorded jumps", "statement": "cpoisson_source returns, in each entry, sign(dn) times the sum of |dn| jump variates of y, each variate being used in exactly one entry; entries with no jumps are exactly 0; dn_value and y_value record the counts and variates used.", "quantifier": "every array of counts, every sequence of y variates", "why_tests_cant": "all count arrays, including large counts", "anchors": ["sdepy/infrastructure.py:cpoisson_source.__call__"]}
{"id": "C32", "title": "Jump distributions: closed form moments agree with the distribution", "statement": "For exponential and double exponential jump distributions the mean, variance and exponential mean used by the library agree with the moments of the densities they sample.", "quantifier": "every parameter value in the domain", "why_tests_cant": "identities for all parameter values", "anchors": ["sdepy/infrastructure.py:_exp_rv", "sdepy/infrastructure.py:_double_exp_rv"]}
{"id": "C33", "title": "process constructor invariant", "statement": "Constructing a process succeeds exactly when exactly one of x, v, c is given and the time points are 0 or 1-dimensional, non empty, and match the first axis of x or v (a 0-dimensional v counts as one time point); all failures are ValueErrors; the result always has at least one time point and time points along its first axis; its shape is (len(t),) + vshape + (paths,) unless x is one-dimensional or v is 0-dimensional; c gives the same value at every time point, v a single path.", "quantifier": "every shape of t, x, v, c", "why_tests_cant": "all shapes", "anchors": ["sdepy/infrastructure.py:process.__new__"]}
{"id": "C34", "title": "Interpolation reproduces stored values and is constant outside the timeline", "statement": "Calling a process at one of its own time points returns exactly the stored values; before the first and after the last time point it returns the first and last values; in between it lies between the values at the neighbouring time points and is the documented linear interpolation; a process with one time point is constant.", "quantifier": "every strictly increasing timeline, values, and query time", "why_tests_cant": "all timelines and query points", "anchors": ["sdepy/infrastructure.py:process.interp", "sdepy/infrastructure.py:process.__call__"]}
{"id": "C35", "title": "Process increments are additive, so a process is a valid stochasticity source", "statement": "p(s, ds) = p(s + ds) - p(s), hence p(s, a) + p(s + a, b) = p(s, a + b), and increments vanish for ds = 0.", "quantifier": "every process, every s, a, b", "why_tests_cant": "all query points", "anchors": ["sdepy/infrastructure.py:process.__call__"]}
{"id": "C36", "title": "rebase", "statement": "Rebasing a process on its own timeline gives the same process; rebasing on any timeline gives at each new time point the interpolated value; rebasing on a finer timeline that includes the original points does not change the interpolated values anywhere.", "quantifier": "every process and every new timeline", "why_tests_cant": "all timelines", "anchors": ["sdepy/infrastructure.py:process.rebase", "sdepy/infrastructure.py:process.interp"]}
{"id": "C37", "title": "Arithmetic on processes preserves the timeline", "statement": "A binary ufunc of two processes succeeds only if their shapes agree up to singleton axes and their timelines are equal or one of them is constant; the result is a process on the common (non constant) timeline with broadcast shape, whose entry at each time, value index and path is the operation applied to the operands' entries. With three process operands, the first being constant, two different timelines of equal length are accepted silently.", "quantifier": "all pairs of processes", "why_tests_cant": "all shapes and timelines", "anchors": ["sdepy/infrastructure.py:process.__array_prepare__", "sdepy/infrastructure.py:process.__array_wrap__", "sdepy/infrastructure.py:process._is_compatible"]}
{"id": "C38", "title": "Time, value and path slicing", "statement": "p['t', i], p['v', i], p['p', i] return processes consisting of the selected time points, values and paths: integer indices keep time and path axes; entries are unchanged; out of range integer time indices raise ValueError, while out of range integer path indices silently give a process with no paths.", "quantifier": "every process, every integer or slice index (negative, out of range, any step)", "why_tests_cant": "all indices", "anchors": ["sdepy/infrastructure.py:process.__getitem__"]}
{"id": "C39", "title": "shapeas", "statement": "p.shapeas(vshape) succeeds exactly when the number of values axes requested can be reached by inserting or removing singleton axes in front, keeps timeline, paths and every entry, and yields the requested number of axes.", "quantifier": "every process shape and every target", "why_tests_cant": "all shapes", "anchors": ["sdepy/infrastructure.py:process.shapeas"]}
{"id": "C40", "title": "Time derivative and integral are inverse to each other", "statement": "p.tint().tder() returns p without its last time point, and p.tder().tint() (on n-1 points) returns p - p['t', 0] without its last time point; tdiff gives the differences of consecutive values.", "quantifier": "every process with at least 2 (resp. 3) strictly increasing time points", "why_tests_cant": "all lengths and timelines", "anchors": ["sdepy/infrastructure.py:process.tint", "sdepy/infrastructure.py:process.tder", "sdepy/infrastructure.py:process.tdiff"]}
{"id": "C41", "title": "Empirical cdf and characteristic function", "statement": "p.cdf(t, x) is between 0 and 1, non decreasing in x, equal to 1 for x not below all path values and to 0 for x below all of them, and is the fraction of paths not exceeding x; p.chf(t, u) has modulus at most 1 and equals 1 at u = 0.", "quantifier": "every number of paths, every sample, every x and u", "why_tests_cant": "all samples", "anchors": ["sdepy/infrastructure.py:process.cdf", "sdepy/infrastructure.py:process.chf"]}
{"id": "C42", "title": "Path and time summaries", "statement": "pmean, psum, pmax, pmin, pvar and tmean, tsum, tmax, tmin, tcumsum are the corresponding statistics taken along the path or time axis, keeping the process structure (one path, resp. constant process); pmin <= p <= pmax pathwise and similarly in time.", "quantifier": "every process", "why_tests_cant": "all sizes", "anchors": ["sdepy/infrastructure.py:process.psum", "sdepy/infrastructure.py:process.pmean", "sdepy/infrastructure.py:process.tmax", "sdepy/infrastructure.py:process.tcumsum"]}
{"id": "C43", "title": "Piecewise constant processes", "statement": "piecewise(mode='forward') evaluates to x[i] for t[i] < s <= t[i+1], mode='backward' evaluates to x[i+1] for t[i] < s <= t[i+1], mode='mid' switches at mid points; all are constant outside the timeline; exactly at a time point t[i], i >= 1, the forward mode still gives x[i-1].", "quantifier": "every strictly increasing timeline and query point", "why_tests_cant": "all timelines and query points", "anchors": ["sdepy/infrastructure.py:piecewise", "sdepy/infrastructure.py:process.interp"]}
{"id": "C44", "title": "Cumulated statistics do not depend on how the sample is split in batches", "statement": "After any sequence of update calls, mean, var, skew and kurtosis equal the mean, population variance, third and fourth standardized central moments of all samples taken together (kurtosis is not in excess of 3, except that with fewer than two paths -3 is returned), paths is the total number of samples, and they do not depend on the order and grouping of samples, nor on the internal centering value.", "quantifier": "every sequence of non empty batches of real samples", "why_tests_cant": "all batch histories", "anchors": ["sdepy/infrastructure.py:montecarlo.update", "sdepy/infrastructure.py:montecarlo._update_moments", "sdepy/infrastructure.py:montecarlo.mean", "sdepy/infrastructure.py:montecarlo.var", "sdepy/infrastructure.py:montecarlo.skew", "sdepy/infrastructure.py:montecarlo.kurtosis"]}
{"id": "C45", "title": "Histogram conservation", "statement": "After any sequence of updates the sum of the histogram counts plus the number of samples outside the bins equals the number of cumulated paths, each count is the number of samples in its bin, and outpaths is 0 after the first batch when bins were chosen from data.", "quantifier": "every sequence of batches and every strictly increasing bin edges", "why_tests_cant": "all batch histories", "anchors": ["sdepy/infrastructure.py:montecarlo._update_histogram", "sdepy/infrastructure.py:montecarlo.histogram", "sdepy/infrastructure.py:montecarlo.outpaths"]}
{"id": "C46", "title": "Antithetic cumulation", "statement": "With use='even' (resp. 'odd') the cumulated sample is half the sum (resp. difference) of the two halves of the paths: the estimate of the mean from use='even' is the plain mean over all paths; an odd number of paths raises ValueError and leaves the object unchanged.", "quantifier": "every sequence of batches", "why_tests_cant": "all batch histories", "anchors": ["sdepy/infrastructure.py:montecarlo.update"]}
{"id": "C47", "title": "Density histogram and interpolated cdf are probability distributions", "statement": "When at least one sample falls in the bins, density_histogram is non negative and integrates to 1 over the bins; the interpolated cdf is non decreasing, 0 below the first bin edge and 1 above the last one, and matches the cumulated fraction of counts at bin edges.", "quantifier": "all histograms", "why_tests_cant": "all bins and counts", "anchors": ["sdepy/infrastructure.py:montecarlo.density_histogram", "sdepy/infrastructure.py:montecarlo._pdf_or_cdf"]}
{"id": "C48", "title": "Indexing a montecarlo object", "statement": "a[i] carries the statistics of component i of a. Indexing an object that has data but no histogram (bins=None) always raises, and updating an indexed object that has data always raises AttributeError.", "quantifier": "every history and index", "why_tests_cant": "all histories", "anchors": ["sdepy/infrastructure.py:montecarlo.__getitem__"]}
{"id": "C49", "title": "Failed updates", "statement": "An update that raises because of incompatible bins on the first batch leaves the object without data but with unusable bins, so that subsequent valid updates fail as well.", "quantifier": "every failing first update", "why_tests_cant": "failure histories are not tested", "anchors": ["sdepy/infrastructure.py:montecarlo.update", "sdepy/infrastructure.py:montecarlo._update_histogram"]}
{"id": "C50", "title": "kfunc parameters: last override wins, evaluation sees the merged parameters", "statement": "For a kfunc f, instance chains f(**a)(**b)...(**z) evaluated at variables v give the same as the wrapped callable evaluated at v with the dictionary obtained by successive overrides; instantiating and evaluating at once, f(v, **a), is equivalent to f(**a)(v).", "quantifier": "every chain of overrides of any length and any dictionaries", "why_tests_cant": "chains and dictionaries are unbounded", "anchors": ["sdepy/kfun.py:_kfunc_decorate_class", "sdepy/kfun.py:_kfunc_decorate_function"]}
{"id": "C51", "title": "kfunc instances are immutable", "statement": "Calling an instance, with or without parameter overrides, never changes the parameters stored in it: evaluating it again gives the same result as before.", "quantifier": "every sequence of calls on every instance", "why_tests_cant": "all call histories", "anchors": ["sdepy/kfun.py:kfunc_class_wrapper.__call__"]}
{"id": "C52", "title": "kfunc wrapping discipline", "statement": "Wrapping is refused when parameters are not keyword only, when a parameter and a variable share a name, or when nvar is out of range; once wrapped, every keyword is routed to exactly one of variables or parameters; params lists every parameter with its current value.", "quantifier": "every signature", "why_tests_cant": "all signatures", "anchors": ["sdepy/kfun.py:kfunc", "sdepy/kfun.py:_kfunc_split_args", "sdepy/kfun.py:kfunc_class_wrapper.params"]}
{"id": "C53", "title": "Put-call parity and delta parity", "statement": "bscall - bsput = x0*exp(-q t) - k*exp(-r t), bscall_delta - bsput_delta = exp(-q t), for every strike, maturity and parameters.", "quantifier": "all parameter values", "why_tests_cant": "identity over a continuum", "anchors": ["sdepy/analytical.py:bscall", "sdepy/analytical.py:bsput", "sdepy/analytical.py:bscall_delta", "sdepy/analytical.py:bsput_delta", "sdepy/analytical.py:bsd1d2"]}
{"id": "C54", "title": "Black-Scholes prices without volatility or time value", "statement": "At t = 0 or sigma = 0 bscall is max(x0*exp(-q t) - k*exp(-r t), 0) and bsput its put counterpart.", "quantifier": "all parameter values", "why_tests_cant": "identity over a continuum including the degenerate branch", "anchors": ["sdepy/analytical.py:bsd1d2", "sdepy/analytical.py:bscall", "sdepy/analytical.py:bsput"]}
{"id": "C55", "title": "Ornstein-Uhlenbeck and Wiener analytical moments solve the moment equations of the SDE", "statement": "The analytical mean and variance equal the initial conditions at t = 0 and satisfy the ordinary differential equations for the moments implied by the drift and diffusion coefficients returned by the corresponding sde.", "quantifier": "all parameter values and times", "why_tests_cant": "identity over a continuum", "anchors": ["sdepy/analytical.py:oruh_mean", "sdepy/analytical.py:oruh_var", "sdepy/analytical.py:wiener_mean", "sdepy/analytical.py:wiener_var", "sdepy/integration.py:ornstein_uhlenbeck_SDE.sde"]}
{"id": "C56", "title": "Lognormal, CIR and Heston analytical moments solve the moment equations of the SDE", "statement": "lognorm_mean, lognorm_var, cir_mean, cir_var, heston_log_mean and heston_log_var match initial conditions and satisfy the moment equations implied by the drift and diffusion of the respective sde (variance and covariance equations included).", "quantifier": "all parameter values and times", "why_tests_cant": "identity over a continuum", "anchors": ["sdepy/analytical.py:lognorm_mean", "sdepy/analytical.py:lognorm_var", "sdepy/analytical.py:cir_mean", "sdepy/analytical.py:cir_var", "sdepy/analytical.py:heston_log_mean", "sdepy/analytical.py:heston_log_var", "sdepy/integration.py:lognorm_SDE.sde", "sdepy/integration.py:cox_ingersoll_ross_SDE.sde", "sdepy/integration.py:full_heston_SDE.sde"]}
{"id": "C57", "title": "Characteristic functions", "statement": "All analytical characteristic functions equal 1 at u = 0; the Kou and Merton ones are the product of the lognormal one, with the same drift (no compensation of jumps), and of the compound Poisson one of the respective jump distribution; none exceeds 1 in modulus.", "quantifier": "all parameter values", "why_tests_cant": "identity over a continuum", "anchors": ["sdepy/analytical.py:wiener_chf", "sdepy/analytical.py:lognorm_log_chf", "sdepy/analytical.py:heston_log_chf", "sdepy/analytical.py:mjd_log_chf", "sdepy/analytical.py:kou_log_chf"]}
{"id": "C58", "title": "Two factor Hull-White moments", "statement": "hw2f_mean is the sum of the two single factor means, and hw2f_var the sum of the two variances plus twice a covariance that satisfies its moment equation; hw2f_var is non negative for |rho| <= 1.", "quantifier": "all parameter values", "why_tests_cant": "identity over a continuum", "anchors": ["sdepy/analytical.py:hw2f_mean", "sdepy/analytical.py:hw2f_var", "sdepy/analytical.py:hw1f_mean", "sdepy/analytical.py:hw1f_var"]}
{"id": "C59", "title": "Jump-diffusion means", "statement": "mjd_mean and kou_mean solve the moment equation implied by the coefficients of the jump-diffusion SDE on logarithms, for jumps of the given mean exponential.", "quantifier": "all parameter values (Kou: a < 1 as needed for the mean to exist)", "why_tests_cant": "identity over a continuum; a compensated drift gives plausible values", "anchors": ["sdepy/analytical.py:mjd_mean", "sdepy/analytical.py:kou_mean", "sdepy/integration.py:jumpdiff_SDE.sde"]}
{"id": "C60", "title": "Black-Scholes deltas and equation", "statement": "bscall_delta and bsput_delta are the derivatives of bscall and bsput with respect to x0, and bscall solves the Black-Scholes equation in time to maturity and price.", "quantifier": "all k, t, x0 > 0, all r, q, all sigma <> 0", "why_tests_cant": "identity over a continuum", "anchors": ["sdepy/analytical.py:bscall", "sdepy/analytical.py:bscall_delta", "sdepy/analytical.py:bsput", "sdepy/analytical.py:bsput_delta", "sdepy/analytical.py:bsd1d2"]}
{"id": "C61", "title": "Sampling from jump distributions, with time dependent parameters and mapped variates", "statement": "Samples have the requested shape, each entry being the standard variate scaled and shifted by the parameters broadcast to it; with a callable parameter a sample at t is a sample of the distribution with the parameters at t; rvmap(f, y) draws the same variates as y and maps them, so that a compound Poisson source based on it has the same counts and the same jumps mapped by f at the middle of each interval.", "quantifier": "every shape, parameters, generator, map and distribution", "why_tests_cant": "all generators, all times and maps", "anchors": ["sdepy/infrastructure.py:_make_rv_params_variable", "sdepy/infrastructure.py:rvmap", "sdepy/infrastructure.py:_double_exp_rv.rvs", "sdepy/infrastructure.py:cpoisson_source.__call__"]}
{"id": "C62", "title": "Indexed references to a source with memory share its memory", "statement": "For a scalar time t, s[i](t) is s(t)[i]: a reference by index returns the entries of the value of the source, and new realizations generated through it are stored for the full extent of the source. With an array of times the index is applied to the leading axes of the result, which are times: s[i](t) is then s(t[i]), not the component i at each time.", "quantifier": "every query history, index and time", "why_tests_cant": "the property ranges over all query histories and all indices", "anchors": ["sdepy/infrastructure.py:_indexed_true_source.__call__", "sdepy/infrastructure.py:true_source.__getitem__"]}
{"id": "C63", "title": "Heston characteristic function", "statement": "heston_log_chf, as a function of time and of the starting values of log(x) and y, solves the Kolmogorov backward equation of the coefficients returned by full_heston_process.sde, with value exp(i u log x0) at t = 0; hence it is the expected value of exp(i u log x(t)) for any law of the solution, with no discontinuity due to the branch of the complex logarithm.", "quantifier": "all t >= 0, u, x0 > 0, y0, mu, sigma, theta >= 0, k > 0, xi <> 0, -1 <= rho <= 1", "why_tests_cant": "an identity between a formula with complex square roots and logarithms and the law of a process, over a continuum of parameters; branch errors show up at isolated ranges of them", "anchors": ["sdepy/analytical.py:heston_log_chf", "sdepy/integration.py:full_heston_process.sde"]}
{"id": "C64", "title": "Densities and distribution functions", "statement": "wiener_pdf, lognorm_pdf, oruh_pdf and hw2f_pdf are probability densities: nonnegative, with integral 1, the derivative of the corresponding cdf, which goes from 0 to 1. Their mean and variance are those of the functions *_mean, *_var and their Fourier transform is *_chf. As functions of time they solve the forward (Fokker-Planck) equation of the coefficients returned by the method sde of the process, and start at x0. hw2f_pdf has the characteristic function of the sum of the two factors in any law of the solution.", "quantifier": "all x, t > 0 and parameters (sigma > 0 for wiener and lognorm, x0 > 0 for lognorm, k, sigma <> 0 for oruh, positive variance for hw2f)", "why_tests_cant": "integrals and partial derivatives over a continuum of times, states and parameters", "anchors": ["sdepy/analytical.py:wiener_pdf", "sdepy/analytical.py:lognorm_pdf", "sdepy/analytical.py:oruh_pdf", "sdepy/analytical.py:hw2f_pdf"]}
{"id": "C65", "title": "Black-Scholes prices are discounted mean payoffs", "statement": "bscall(k, t, x0, r, q, sigma) is exp(-r t) times the integral of max(x - k, 0) with the density lognorm_pdf of parameters x0, mu = r - q, sigma, and bsput the same with max(k - x, 0).", "quantifier": "all k, t, x0, sigma > 0 and all r, q", "why_tests_cant": "an identity between a closed formula and an improper integral, over a continuum of parameters", "anchors": ["sdepy/analytical.py:bscall", "sdepy/analytical.py:bsput", "sdepy/analytical.py:lognorm_pdf"]}
{"id": "C66", "title": "integrate decorator: class inferred from a test evaluation", "statement": "integrate(f) makes a class with the number of equations and the set of differentials of the value of f() or, if that fails, of f(1., 1.); it raises TypeError if both fail, ValueError for an empty sequence, AttributeError for a value that is not made of dictionaries. With one of q and sources given the class is the same if they agree with the test, else TypeError; with both given f is not evaluated. f is then called with time and values for its first parameters and the parameters of the equation by name. Integration completes if f always shows the differentials of the test, and fails with KeyError if it shows others.", "quantifier": "all functions with positional-or-keyword parameters, all given q and sources, all arguments, timelines and initial points", "why_tests_cant": "all functions and all combinations of defaults and keyword arguments", "anchors": ["sdepy/integration.py:_SDE_from_function", "sdepy/integration.py:integrate"]}
{"id": "C67", "title": "Sources given to or made by an SDE", "statement": "A source object is accepted as dw, dn or dj if and only if it has the same paths and a vshape that broadcasts to the expected one, else ValueError, and then its values broadcast to those of the equation. Sources not given are made with the shape of the equation: a Wiener source if the correlations are matrices of the number of components, a Poisson source if the intensity broadcasts, is not negative, and a compound Poisson source; bad shapes are refused, at once or when used. Integration with such sources completes. A source of counts given to a compound Poisson source that merely broadcasts to its shape gives wrong values, or IndexError.", "quantifier": "all source objects, parameters, shapes, number of paths, timelines, and all equations with coefficients that broadcast", "why_tests_cant": "all combinations of shapes, sources and parameters", "anchors": ["sdepy/infrastructure.py:_source_setup", "sdepy/infrastructure.py:_check_source", "sdepy/infrastructure.py:cpoisson_source", "sdepy/integration.py:SDE.source_dw", "sdepy/integration.py:SDE.source_dn", "sdepy/integration.py:SDE.source_dj"]}
{"id": "C68", "title": "Convergence of the integration", "statement": "For an equation with additive noise, Lipschitz drift and a source of increments of a path, the values given by an integration, before and after the initial time, differ from the solution by not more than om/L (exp(L |t - t0|) - 1), where om is the variation of the drift along the solution over the longest step; hence they converge as the steps get smaller, for any timeline. steps=n gives steps of at most the duration over n - 1. With the sources made by the class, the mean and the variance of the values of wiener_process, and of their logarithm for lognorm_process, are exactly those of the process whatever the steps; those of ornstein_uhlenbeck_process converge to the analytical ones with an error of the order of the longest step.", "quantifier": "all equations with additive noise and Lipschitz drift, all timelines, steps, initial indexes, shapes, paths; all parameters of the three processes", "why_tests_cant": "a limit over all timelines and steps, and expected values that simulations only estimate", "anchors": ["sdepy/integration.py:integrator.euler_next", "sdepy/integration.py:paths_generator.pace", "sdepy/integration.py:wiener_SDE", "sdepy/integration.py:lognorm_SDE", "sdepy/integration.py:ornstein_uhlenbeck_SDE", "sdepy/analytical.py:oruh_mean", "sdepy/analytical.py:oruh_var"]}
{"id": "C69", "title": "Density of the Cox-Ingersoll-Ross process", "statement": "For x0 > 0, k*theta > 0, xi != 0 and t > 0, cir_pdf is positive with integral 1 on the positive half line; its mean and variance are cir_mean and cir_var; it satisfies the forward equation with the coefficients returned by the method sde of cox_ingersoll_ross_process; its Laplace transform is, at all times, that of any law of the solution of that equation that starts at x0, and tends to exp(-s x0) as t tends to 0.", "quantifier": "all parameters with x0 > 0, k*theta > 0, xi != 0, all t > 0, x > 0, s >= 0; any Bessel function iv given by its series", "why_tests_cant": "the test compares histograms of simulations with the density at few parameters, within a tolerance", "anchors": ["sdepy/analytical.py:cir_pdf", "sdepy/analytical.py:cir_mean", "sdepy/analytical.py:cir_var", "sdepy/integration.py:cox_ingersoll_ross_SDE.sde"]}
{"id": "C70", "title": "Densities computed from characteristic functions", "statement": "If quad gives the exact value of integrals, _chf_to_pdf gives the values of the density, for any continuous density with an integrable characteristic function; it needs t or x to be a scalar, and has the shape of the other. For sigma != 0, lam >= 0 and t > 0, mjd_log_pdf and kou_log_pdf are the density of a normal variate plus the sum of a Poisson number of independent jumps, distributed as norm_rv and double_exp_rv; the former is also the series of normal densities weighted by Poisson probabilities. The Heston characteristic function is integrable for |rho| < 1, so heston_log_pdf is the density of the logarithm of the price under any law of the solution of heston_sde, if there is a continuous one.", "quantifier": "all parameters in the domain, all t > 0 and x, all shapes; any quad that integrates", "why_tests_cant": "tests compare histograms of simulations with the densities for few parameters, within a tolerance", "anchors": ["sdepy/analytical.py:_chf_to_pdf", "sdepy/analytical.py:mjd_log_pdf", "sdepy/analytical.py:kou_log_pdf", "sdepy/analytical.py:heston_log_pdf"]}
{"id": "C71", "title": "Exact law of simulated Wiener, lognormal, Merton and Kou processes", "statement": "With the sources made by the class, an integration of wiener_process, lognorm_process, merton_jumpdiff_process or kou_jumpdiff_process with constant parameters succeeds, and its values (logarithms of values, for the last three) are those of a process with independent increments: they start at x0 (ln x0), and the mean of the exponential of any linear combination of increments, between any points of the timeline, for all entries and paths, is the product of exp(dt*psi(theta)), where psi is the exponent of a Brownian motion with drift mu (mu - sigma^2/2 for the last three), plus lam*(J - 1) for jumps. So the characteristic function at each time is wiener_chf, lognorm_log_chf, mjd_log_chf or kou_log_chf, and the mean price is lognorm_mean, mjd_mean or kou_mean, exactly, whatever the steps.", "quantifier": "all generators that give independent variates of the laws asked for, all parameters in the domain, all shapes, paths, timelines and steps, all exponents", "why_tests_cant": "tests compare statistics of finitely many paths with the formulas, within a tolerance, for few parameters", "anchors": ["sdepy/integration.py:wiener_SDE", "sdepy/integration.py:lognorm_SDE", "sdepy/integration.py:merton_jumpdiff_SDE", "sdepy/integration.py:kou_jumpdiff_SDE", "sdepy/infrastructure.py:cpoisson_source.__call__", "sdepy/analytical.py:mjd_log_chf", "sdepy/analytical.py:kou_log_chf"]}
{"id": "C72", "title": "Joint Gaussian law of simulated processes, with correlations, and convergence of mean reverting ones", "statement": "With the source made by the class, given correlations corr or rho (or none), an integration of wiener_process, lognorm_process, ornstein_uhlenbeck_process or hull_white_process with constant parameters succeeds, and its values at all points of the timeline, for all entries and paths (their logarithms, for lognorm_process), are jointly Gaussian. For wiener_process and lognorm_process means are exactly x0 + mu*t (ln x0 + (mu - sigma^2/2)*t), and the covariance of two values, at times s and t, is sigma*sigma'*c*min(s,t), c being the correlation between components along the last axis of vshape, and zero for different paths or different entries along other axes. For the mean reverting processes, means are within C*h of oruh_mean (of its sum over factors), and covariances within C*h of sigma*sigma'*c times the integral of exp(-k(s-r))*exp(-k'(t-r)) up to min(s,t), h being the longest step and C depending only on the largest k and on the length of the timeline. The variances approached are oruh_var, and hw2f_var with two factors; characteristic functions converge to those of the process.", "quantifier": "all generators that give independent normal variates, and normal variates of the covariance matrix asked for, all correlations, parameters, shapes, factors, paths, timelines and steps, all exponents", "why_tests_cant": "tests compare sample means and variances of finitely many paths with the formulas within a tolerance, at few parameters and step sizes; joint laws across times, components and paths are not compared", "anchors": ["sdepy/integration.py:wiener_SDE", "sdepy/integration.py:lognorm_SDE", "sdepy/integration.py:ornstein_uhlenbeck_SDE", "sdepy/integration.py:hull_white_SDE", "sdepy/integration.py:SDE.source_dw", "sdepy/infrastructure.py:wiener_source.__call__", "sdepy/analytical.py:oruh_var", "sdepy/analytical.py:hw2f_var"]}
{"id": "C73", "title": "Diagnostics do not affect results", "statement": "For any SDE and integrator, an integration completed with getinfo=True gives the values, and leaves the sources in the state, of one with getinfo=False; if the info methods do not fail, outcomes are the same, exceptions included. This holds for all eight preset processes (jumpdiff: if the jumps exposed by its source broadcast to vshape + (paths,)). The negative_y_count of the Heston processes is, for each entry, the number of steps of the last pass made that start from a negative y.", "quantifier": "all SDEs, integrators, diagnostics, sources, initial states, parameters, shapes, timelines, steps and i0", "why_tests_cant": "tests compare results with and without diagnostics for few processes and seeds; counts are not compared with the steps made, nor can all user defined diagnostics be tried", "anchors": ["sdepy/integration.py:SDE.begin", "sdepy/integration.py:SDE.next", "sdepy/integration.py:SDE.store", "sdepy/integration.py:SDE.end", "sdepy/integration.py:full_heston_SDE.info_next", "sdepy/integration.py:jumpdiff_SDE.info_next"]}
{"id": "C74", "title": "Laws of simulations with time dependent parameters and of antithetic paths", "statement": "The values given by an integration of a Wiener, lognormal, Ornstein-Uhlenbeck or Hull-White process with time dependent parameters and correlations are jointly Gaussian over all points of the timeline, components and paths (for the lognormal process, their logarithms are), whatever the steps. Their means and covariances differ from those of the process by at most C(1+|x0|)(h+e), where h is the longest step, e bounds the change of parameters over times h apart, and C depends only on a bound on parameters and on the time span; for continuous parameters they converge as steps get shorter. The means and covariances of the process solve its moment equations, and are those of the analytical module if parameters are constant. This holds too if dw is the class odd_wiener_source: the paths of each pair then have opposite noise, and their values add up exactly to the sum of their means (for the lognormal process, multiply to the exponential of the sum of the means of the logarithms), for all states of the generator.", "quantifier": "all continuous time dependent parameters and correlations, all shapes and numbers of paths, timelines and steps, all generators with normal variates", "why_tests_cant": "tests sample few paths, of few processes with fixed parameters, and compare moments within tolerances; a limit and a law cannot be tested", "anchors": ["sdepy/integration.py:wiener_SDE", "sdepy/integration.py:lognorm_SDE", "sdepy/integration.py:ornstein_uhlenbeck_SDE", "sdepy/integration.py:hull_white_SDE", "sdepy/infrastructure.py:wiener_source", "sdepy/infrastructure.py:odd_wiener_source"]}
{"id": "C75", "title": "Weak convergence of simulated Cox-Ingersoll-Ross processes", "statement": "For any values that a cir_process with constant positive parameters computes from normal variates, on any timeline and with steps of length h or less, with independent or antithetic paths: the mean, the second moment and the variance at any time of the timeline differ from cir_mean and cir_var by at most C h; the mean of the negative part (the process is positive, its approximation is not) is at most C h, at any time; the Laplace transform differs by at most C h from that of the density that cir_pdf computes, which is that of any law of the process; and means of bounded continuous functions tend to their integrals on the density that cir_pdf computes. C depends on the parameters and on the time span only, not on timeline, steps or shapes.", "quantifier": "all positive parameters, initial values, shapes and numbers of paths, timelines and steps, all generators of normal variates, all bounded continuous functions", "why_tests_cant": "tests compare a few sample moments with tolerances, for a few step sizes; the order of convergence and the limit law cannot be tested", "anchors": ["sdepy/integration.py:cir_SDE", "sdepy/integration.py:paths_generator", "sdepy/infrastructure.py:wiener_source", "sdepy/infrastructure.py:odd_wiener_source", "sdepy/analytical.py:cir_pdf"]}
{"id": "C76", "title": "Weak convergence of simulated Heston processes", "statement": "For any values that a full_heston_process or a heston_process with constant parameters computes from normal variates, of any correlation between price and variance, on any timeline and with steps of length h or less, with independent or antithetic paths: the mean of the price at any time is x0 exp(mu t), exactly, whatever the steps; the mean, the second moment and the variance of the logarithm of the price differ from heston_log_mean and heston_log_var by at most C h; its characteristic function differs from heston_log_chf by at most C h; the mean and the variance of the variance differ from cir_mean and cir_var by at most C h, and the mean of its negative part is at most C h. C depends on the parameters and on the time span only, not on timeline, steps or shapes.", "quantifier": "all parameters, initial values, correlations, shapes and numbers of paths, timelines and steps, all generators of normal variates", "why_tests_cant": "tests compare a few sample moments with tolerances, for a few step sizes; the exact mean, the order of convergence and the limit cannot be tested", "anchors": ["sdepy/integration.py:full_heston_SDE", "sdepy/integration.py:heston_SDE", "sdepy/integration.py:paths_generator", "sdepy/infrastructure.py:wiener_source", "sdepy/infrastructure.py:odd_wiener_source", "sdepy/analytical.py:heston_log_mean", "sdepy/analytical.py:heston_log_var", "sdepy/analytical.py:heston_log_chf"]}
{"id": "C77", "title": "Shortcuts, and documented parameters", "statement": "For each setting of KFUNC ('all', 'shortcuts', None; any other is refused), each full name of a source or process and its documented shortcut stand for the same class, wrapped as a kfunc exactly when the setting says so, never twice; analytical functions are wrapped unless the setting is None, with the arguments before the star as variables and the others as parameters; called with some variable, the wrapped function does what the function does. Each preset process accepts exactly the keywords of its documented signature, with the documented defaults, whatever the order its sources are iterated on; any keywords of an analytical function are accepted by the process it is named after, where they have the same values, given or not.", "quantifier": "all settings, all names, all keywords and values, all calls, all orders of sources", "why_tests_cant": "tests run with one setting, and call with a few keywords", "anchors": ["sdepy/shortcuts.py", "sdepy/kfun.py:iskfunc", "sdepy/kfun.py:kfunc", "sdepy/integration.py:SDE.__init__", "sdepy/analytical.py"]}
{"id": "C78", "title": "Standard deviations of the analytical results", "statement": "For t >= 0 and parameters of a process (k nonzero, or positive for square root processes; initial values, mean and variance not negative; correlation between -1 and 1) all analytical variances are not negative, and vanish at t = 0, so that the standard deviation functions return real numbers whose square is the variance; the variance of the logarithm of a Heston process is the integral of the mean of its variance process times the quadratic form of its two noises.", "quantifier": "all times and parameters as stated", "why_tests_cant": "tests compare a few values with simulations, within large tolerances", "anchors": ["sdepy/analytical.py:wiener_std", "sdepy/analytical.py:lognorm_std", "sdepy/analytical.py:oruh_std", "sdepy/analytical.py:hw2f_std", "sdepy/analytical.py:cir_std", "sdepy/analytical.py:heston_log_std", "sdepy/analytical.py:heston_log_var"]}
{"id": "C79", "title": "Rounding errors of simulated Wiener and lognormal processes", "statement": "Computed with IEEE 754 double precision numbers, a simulated Wiener process with constant parameters has the values x0 + mu (t - t0) + sigma (W(t) - W(t0)) at all output times up to an error proportional to the number of steps, the unit roundoff and the size of the path (plus the errors of the source); values are finite if data are finite and not too large; two runs with different steps differ by at most the sum of the two bounds, and may differ; for a lognormal process the same holds for the relative error, for any exp and log of given accuracy. The coefficients of a CIR process at finite values, negative ones included, are never NaN because of the square root, and are correctly rounded; a NaN is never hidden by the truncation at zero.", "quantifier": "all shapes, parameters, timelines, steps, start indices, sources, and all double precision values", "why_tests_cant": "error bounds concern all values, numbers of steps and magnitudes, tests compare a few runs within tolerances", "anchors": ["sdepy/integration.py:SDE.euler_next", "sdepy/integration.py:SDE.next", "sdepy/integration.py:wiener_SDE", "sdepy/integration.py:lognorm_SDE", "sdepy/integration.py:integrator.__call__", "sdepy/integration.py:cox_ingersoll_ross_SDE.sde"]}
{"id": "C80", "title": "Means of functions of simulated Gaussian processes; Monte Carlo prices", "statement": "Whatever the timeline and the steps, the mean of any continuous function of at most exponential growth of a value of a simulated Wiener or lognormal process is its mean under the law of the process (density wiener_pdf, lognorm_pdf), also with antithetic paths; values of different entries and paths are independent; the mean of the discounted payoff of a simulated lognormal process is the price given by bscall or bsput; averages over paths have this mean, and a mean square error equal to the variance of one payoff over the number of paths. With time dependent parameters, and for Ornstein-Uhlenbeck processes, the means approach those under the law of the process as steps get shorter.", "quantifier": "all shapes, parameters, timelines, steps, numbers of paths, entries, times, and functions of at most exponential growth", "why_tests_cant": "tests compare averages of a few functions over a finite sample with wide tolerances; the statement is on exact means, over all functions", "anchors": ["sdepy/integration.py:wiener_SDE", "sdepy/integration.py:lognorm_SDE", "sdepy/integration.py:ornstein_uhlenbeck_SDE", "sdepy/integration.py:integrator.__call__", "sdepy/infrastructure.py:wiener_source", "sdepy/analytical.py:wiener_pdf", "sdepy/analytical.py:lognorm_pdf", "sdepy/analytical.py:bscall", "sdepy/analytical.py:bsput"]}
{"id": "C81", "title": "Probabilities: distribution functions of simulated Gaussian processes", "statement": "Whatever the timeline and the steps, the probability that a value of a simulated Wiener (lognormal) process is at most y is wiener_cdf (lognorm_cdf) at y, also with antithetic paths; the probability of an interval is the difference of the values at its ends; the probability of exercise of a call is the normal distribution function at d2 of bsd1d2; events on different entries and paths are independent; the fraction of the paths with a value of at most y has that probability p as its mean, and mean square error p(1 - p)/paths. With time dependent parameters, and for Ornstein-Uhlenbeck processes (oruh_cdf), probabilities approach those of the process as steps get shorter.", "quantifier": "all shapes, parameters, timelines, steps, numbers of paths, entries, times, and bounds y", "why_tests_cant": "tests compare empirical distributions of a finite sample with wide tolerances; the statement is on exact probabilities, of all events of this form", "anchors": ["sdepy/integration.py:wiener_SDE", "sdepy/integration.py:lognorm_SDE", "sdepy/integration.py:ornstein_uhlenbeck_SDE", "sdepy/integration.py:integrator.__call__", "sdepy/infrastructure.py:wiener_source", "sdepy/analytical.py:wiener_cdf", "sdepy/analytical.py:lognorm_cdf", "sdepy/analytical.py:oruh_cdf", "sdepy/analytical.py:bsd1d2"]}
{"id": "C82", "title": "Statistics of simulated processes estimate the analytical quantities", "statement": "An integration returns a process on the requested timeline, whose entries are the computed values. For simulated Wiener and lognormal processes, whatever the timeline and the steps: the average of the paths (pmean) has mean wiener_mean (lognorm_mean) and mean square error wiener_var/paths (lognorm_var/paths); the variance of the paths (pvar) with ddof = k has mean var*(paths - 1)/(paths - k), so that it is unbiased with ddof=1; the empirical cdf has mean wiener_cdf (lognorm_cdf) = p and mean square error p(1 - p)/paths; the empirical characteristic function has mean wiener_chf. A montecarlo object of a function of the values has the mean of the function as the mean of its mean, its variance is the one with ddof=0, and the mean of the square of its standard error is the mean square error of its mean; for discounted payoffs of calls, its mean estimates the price bscall without bias.", "quantifier": "all shapes, parameters, timelines, steps, numbers of paths, components, times, functions of at most exponential growth, and bins", "why_tests_cant": "tests compare statistics of one sample with wide tolerances, so that a biased statistic (ddof, paths - 1) passes; the statement is on their exact means", "anchors": ["sdepy/integration.py:SDE.result", "sdepy/integration.py:SDE.exit", "sdepy/integration.py:wiener_SDE", "sdepy/integration.py:lognorm_SDE", "sdepy/infrastructure.py:process.pmean", "sdepy/infrastructure.py:process.pvar", "sdepy/infrastructure.py:process.cdf", "sdepy/infrastructure.py:process.chf", "sdepy/infrastructure.py:montecarlo.update", "sdepy/infrastructure.py:montecarlo.stderr", "sdepy/analytical.py:bscall"]}
{"id": "C83", "title": "Antithetic paths reduce the error of Monte Carlo estimates, and use='even' states it", "statement": "With an antithetic source (odd_wiener_source with 2n paths) and a montecarlo object of a function of the simulated values. In each run, the values of a Wiener process on paths j and n+j average to its mean, and those of a lognormal process have its median as geometric mean. With use='even', the mean is unbiased, its mean square error is e2 = ((E f(Y)^2 + E f(Y)f(Y'))/2 - (E f)^2)/n, where Y' is the mirrored value, and the squared standard error has mean e2. With use='all', the mean has the same bias and error, but the squared standard error has mean (E f^2 - (E f)^2 - e2)/(2n - 1): for a monotone f (as payoffs of calls and puts), the error is at most the one from 2n independent paths, and the standard error with use='all' does not state this reduction. For Ornstein-Uhlenbeck (and Hull-White) processes and time dependent parameters, the values on the two paths average, in each run, to the mean of the simulated process, which approaches oruh_mean as steps get shorter.", "quantifier": "all shapes, parameters, timelines, steps, numbers of paths, components, times, functions of at most exponential growth, and bins", "why_tests_cant": "tests compare one sample with wide tolerances, so that an overstated or understated standard error passes; the statement is on exact means and on every run", "anchors": ["sdepy/infrastructure.py:montecarlo.update", "sdepy/infrastructure.py:montecarlo.stderr", "sdepy/infrastructure.py:odd_wiener_source", "sdepy/integration.py:wiener_SDE", "sdepy/integration.py:lognorm_SDE", "sdepy/analytical.py:bscall", "sdepy/integration.py:ornstein_uhlenbeck_SDE"]}
{"id": "C84", "title": "Rounding errors of simulated Ornstein-Uhlenbeck processes do not grow", "statement": "Computed with IEEE 754 double precision numbers, a simulated Ornstein-Uhlenbeck process with constant parameters and stable steps (0 <= k dt <= 2) has, at all output times, the values of the Euler scheme in exact arithmetic with the same noise up to an error proportional to the number of steps, the unit roundoff and the size of the path (plus the errors of the source): rounding errors of earlier steps, fed back through the drift k(theta - x), are not amplified. There is no overflow if data are finite and far from the largest number.", "quantifier": "all shapes, parameters, timelines, steps, start indices, sources, and all double precision values", "why_tests_cant": "error bounds concern all values, numbers of steps and magnitudes, tests compare a few runs within tolerances", "anchors": ["sdepy/integration.py:SDE.euler_next", "sdepy/integration.py:SDE.next", "sdepy/integration.py:ornstein_uhlenbeck_SDE", "sdepy/integration.py:integrator.__call__"]}
{"id": "C85", "title": "Means cumulated in double precision depend on the samples at most by rounding errors", "statement": "Computed with IEEE 754 double precision numbers, the mean cumulated by a montecarlo instance over any sequence of updates is finite and differs from the average of all values by at most (2 B + 12 k + 4) u P, for k samples of at most B values of magnitude at most P (u the unit roundoff): the error does not grow with the total number of data points. Means of the same values, in other samples or in other order, differ at most by the sum of the bounds; they are not equal in general.", "quantifier": "all sequences of samples, shapes, axes, settings of the histogram, and all double precision values up to 2^900", "why_tests_cant": "error bounds concern all values, sizes of samples and numbers of updates, tests compare a few means within tolerances", "anchors": ["sdepy/infrastructure.py:montecarlo.update", "sdepy/infrastructure.py:montecarlo._update_moments", "sdepy/infrastructure.py:montecarlo.mean"]}
