{
 "claims": [
  {
   "property": "C01",
   "status": "proved",
   "theorems": [
    "C01_outputs_stored",
    "C01_outputs_stored_depth2"
   ],
   "note": "Generic in the type of time points (laws checked for Z, R, IEEE doubles), callbacks and depth."
  },
  {
   "property": "C02",
   "status": "proved",
   "theorems": [
    "C02_merged_grid"
   ],
   "note": "pace is an arbitrary function of the timeline (steps=None, integer or iterable are instances)."
  },
  {
   "property": "C03",
   "status": "proved",
   "theorems": [
    "C03_adaptive_outputs",
    "C03_bad_step_ends",
    "C03_only_failure"
   ],
   "note": "Every adaptive choice of steps."
  },
  {
   "property": "C04",
   "status": "proved",
   "theorems": [
    "C04_validation"
   ],
   "note": ""
  },
  {
   "property": "C05",
   "status": "proved",
   "theorems": [
    "C05_negative_index",
    "C05_minus_len",
    "C05_passes"
   ],
   "note": "For i0=-len an extra one point backward pass is run by the code; equality with i0=0 is proved for one step methods (depth 2) whose begin has no side effects."
  },
  {
   "property": "C06",
   "status": "proved",
   "theorems": [
    "C06_counters",
    "C06_computed_steps",
    "C06_doc_forward_only_refuted"
   ],
   "note": "Depth 2. The class documentation (forward part only) is refuted."
  },
  {
   "property": "C07",
   "status": "proved",
   "theorems": [
    "C07_euler_recursion",
    "C07_run_completes"
   ],
   "note": "Generic in numbers, time points, equation, sources."
  },
  {
   "property": "C08",
   "status": "proved",
   "theorems": [
    "C08_wiener_exact"
   ],
   "note": "Over the reals."
  },
  {
   "property": "C09",
   "status": "proved",
   "theorems": [
    "C09_lognorm_exact"
   ],
   "note": "Over the reals."
  },
  {
   "property": "C10",
   "status": "proved",
   "theorems": [
    "C10_start_linear",
    "C10_start_log",
    "C10_start_system",
    "C10_system_log_exponentiated",
    "C10_system_log_refuted"
   ],
   "note": "For systems with log=True the code returns exp(x0), not x0, at the starting point: C10_system_log_refuted."
  },
  {
   "property": "C11",
   "status": "proved",
   "theorems": [
    "C11_unpack_pack",
    "C11_pack_succeeds",
    "C11_pack_unpack",
    "C11_components_partition",
    "C11_components",
    "C11_uncoupled"
   ],
   "note": "Packing: for any type of numbers. Runs: over the reals, where the order of the sum of differentials does not matter."
  },
  {
   "property": "C12",
   "status": "proved",
   "theorems": [
    "C12_accepted_iff",
    "C12_rejected",
    "C12_values",
    "C12_prepared",
    "C12_prepare_fails",
    "C12_dispatch",
    "C12_systems"
   ],
   "note": "Any collection of signatures. A parameter declared once with and once without a default counts as declared twice with different defaults; an unknown source is a ValueError; unhashable defaults are rejected with TypeError."
  },
  {
   "property": "C13",
   "status": "proved",
   "theorems": [
    "C13_undeclared_step",
    "C13_run_declared",
    "C13_undeclared_run",
    "C13_missing_is_zero"
   ],
   "note": "Missing coefficients count as zero: over the reals."
  },
  {
   "property": "C14",
   "status": "proved",
   "theorems": [
    "C14_cir_run",
    "C14_cir_negative",
    "C14_full_heston_run",
    "C14_heston_run",
    "C14_heston_negative",
    "C14_cir_no_nan",
    "C14_full_heston_no_nan",
    "C14_heston_no_nan"
   ],
   "note": "Runs follow the recursion with the positive part; in numbers with an invalid value no result is invalid."
  },
  {
   "property": "C15",
   "status": "proved",
   "theorems": [
    "C15_heston_from_full",
    "C15_full_from_heston",
    "C15_start_full",
    "C15_start_heston"
   ],
   "note": "Any type of numbers; starting values over the reals."
  },
  {
   "property": "C16",
   "status": "proved",
   "theorems": [
    "C16_hull_white_sum",
    "C16_one_factor"
   ],
   "note": "Any type of numbers for the sum; one factor over the reals (0 + x = x)."
  },
  {
   "property": "C17",
   "status": "proved",
   "theorems": [
    "C17_counters",
    "C17_count_total",
    "C17_rate_total"
   ],
   "note": "Counters cover the last pass made, the only one when integrating in one direction."
  },
  {
   "property": "C18",
   "status": "proved",
   "theorems": [
    "C18_same_value",
    "C18_calm",
    "C18_initial",
    "C18_increasing",
    "C18_kept",
    "C18_wiener",
    "C18_poisson",
    "C18_cpoisson",
    "C18_refuted",
    "C18_size",
    "C18_compound_size"
   ],
   "note": "The generator is an arbitrary state machine; C18_refuted is the exception, with t0 = 1 and any tolerance in (0, 1)."
  },
  {
   "property": "C19",
   "status": "proved",
   "theorems": [
    "C19_elements",
    "C19_difference",
    "C19_additive",
    "C19_repeated"
   ],
   "note": "For rtol = 0, or t0 = 0 and rtol < 1."
  },
  {
   "property": "C20",
   "status": "proved",
   "theorems": [
    "C20_above",
    "C20_below",
    "C20_before",
    "C20_exact_match",
    "C20_exact_new",
    "C20_refuted"
   ],
   "note": ""
  },
  {
   "property": "C21",
   "status": "proved",
   "theorems": [
    "C21_brownian",
    "C21_covariance"
   ],
   "note": "Values are linear combinations of the successive unit increments drawn; covariances for any linear expectation."
  },
  {
   "property": "C22",
   "status": "proved",
   "theorems": [
    "C22_bridge",
    "C22_moments",
    "C22_covariance",
    "C22_outside",
    "C22_process"
   ],
   "note": "Covariances for any linear expectation; the inverse is any function returning a two-sided inverse. C22_process: a correlation given as a process fails between stored times."
  },
  {
   "property": "C23",
   "status": "proved",
   "theorems": [
    "C23_counting",
    "C23_unchanged",
    "C23_values",
    "C23_trials",
    "C23_succeeds"
   ],
   "note": ""
  },
  {
   "property": "C24",
   "status": "proved",
   "theorems": [
    "C24_split",
    "C24_poisson_total",
    "C24_binomial_total",
    "C24_arguments",
    "C24_joint"
   ],
   "note": ""
  },
  {
   "property": "C25",
   "status": "proved",
   "theorems": [
    "C25_conserved",
    "C25_split",
    "C25_assertion",
    "C25_equal",
    "C25_succeeds",
    "C25_refuted",
    "C25_cancelling"
   ],
   "note": "C25_refuted is the failure with jumps of size zero, C25_assertion its exact condition; C25_cancelling: values equal at both ends although there are jumps between."
  },
  {
   "property": "C26",
   "status": "proved",
   "theorems": [
    "C26_times",
    "C26_wiener",
    "C26_poisson",
    "C26_poisson_zero",
    "C26_poisson_succeeds",
    "C26_cpoisson"
   ],
   "note": ""
  },
  {
   "property": "C27",
   "status": "proved",
   "theorems": [
    "C27_uncorrelated",
    "C27_constant",
    "C27_variable",
    "C27_covariance"
   ],
   "note": "The generator's normal and multivariate_normal are oracles; covariance is stated for any expectation that is homogeneous."
  },
  {
   "property": "C28",
   "status": "proved",
   "theorems": [
    "C28_matrix",
    "C28_refused",
    "C28_semidefinite"
   ],
   "note": ""
  },
  {
   "property": "C29",
   "status": "proved",
   "theorems": [
    "C29_neither",
    "C29_corr",
    "C29_rho",
    "C29_rho_at",
    "C29_paths_refuted"
   ],
   "note": "C29_paths_refuted: a process of M values and M paths is accepted as a correlation, its paths being used as columns."
  },
  {
   "property": "C30",
   "status": "proved",
   "theorems": [
    "C30_even_paths",
    "C30_halves",
    "C30_errors",
    "C30_odd",
    "C30_even"
   ],
   "note": ""
  },
  {
   "property": "C31",
   "status": "proved",
   "theorems": [
    "C31_jumps",
    "C31_none",
    "C31_number",
    "C31_succeeds"
   ],
   "note": "Counts are assumed to have shape t.shape + vshape + (paths,), as those of poisson_source do (C26)."
  },
  {
   "property": "C32",
   "status": "proved",
   "theorems": [
    "C32_exp_density",
    "C32_exp_mean",
    "C32_exp_var",
    "C32_exp_std",
    "C32_exp_exp_mean",
    "C32_exp_new",
    "C32_documented_scale_refuted",
    "C32_double_mean",
    "C32_double_var",
    "C32_double_std",
    "C32_double_exp_mean",
    "C32_double_infinite",
    "C32_double_infinite_refuted",
    "C32_double_new",
    "C32_double_moments",
    "C32_double_one",
    "C32_double_arrays_refuted",
    "C32_uniform_exp_mean",
    "C32_normal_density",
    "C32_normal_moments",
    "C32_normal_exp_mean"
   ],
   "note": "Moments are integrals over the standard densities that scipy scales and shifts. Refuted: the documented densities take a as a rate, while it is a scale; exp_mean of a double exponential is infinite for a >= 1 even if pa = 0; it raises if there is more than one value of the parameters."
  },
  {
   "property": "C33",
   "status": "proved",
   "theorems": [
    "C33_succeeds",
    "C33_error",
    "C33_x",
    "C33_v",
    "C33_c",
    "C33_shape",
    "C33_copy",
    "C33_invariant",
    "C33_one_axis_refuted"
   ],
   "note": "C33_one_axis_refuted: a one dimensional x is accepted, and the process then has no path axis."
  },
  {
   "property": "C34",
   "status": "proved",
   "theorems": [
    "C34_shape",
    "C34_linear",
    "C34_unique",
    "C34_nodes",
    "C34_outside",
    "C34_between",
    "C34_constant",
    "C34_nearest"
   ],
   "note": "Kinds 'linear' and 'nearest' of scipy's interp1d are modelled, over the reals."
  },
  {
   "property": "C35",
   "status": "proved",
   "theorems": [
    "C35_increments",
    "C35_additive",
    "C35_zero"
   ],
   "note": ""
  },
  {
   "property": "C36",
   "status": "proved",
   "theorems": [
    "C36_any",
    "C36_refused",
    "C36_own",
    "C36_finer",
    "C36_kind_lost_refuted"
   ],
   "note": "C36_kind_lost_refuted: the result is linearly interpolated whatever the kind of the original process."
  },
  {
   "property": "C37",
   "status": "proved",
   "theorems": [
    "C37_binary_succeeds",
    "C37_binary",
    "C37_unary",
    "C37_array",
    "C37_array_refused",
    "C37_first",
    "C37_ternary_refuted"
   ],
   "note": "C37_ternary_refuted: functions of three processes may mix two timelines if the first process is constant."
  },
  {
   "property": "C38",
   "status": "proved",
   "theorems": [
    "C38_time",
    "C38_time_int",
    "C38_paths",
    "C38_paths_out_of_range",
    "C38_values",
    "C38_value_int",
    "C38_other"
   ],
   "note": "Indices are integers and slices. Out of range path numbers give a process with no paths."
  },
  {
   "property": "C39",
   "status": "proved",
   "theorems": [
    "C39_insert",
    "C39_remove",
    "C39_axes"
   ],
   "note": "shapeas uses the number of axes of its argument only."
  },
  {
   "property": "C40",
   "status": "proved",
   "theorems": [
    "C40_tdiff",
    "C40_tdiff_one",
    "C40_tint",
    "C40_tint_tder",
    "C40_tder_tint",
    "C40_tint_zero"
   ],
   "note": "Real numbers; integer processes, whose integral is truncated, are not modelled."
  },
  {
   "property": "C41",
   "status": "proved",
   "theorems": [
    "C41_arguments",
    "C41_cdf",
    "C41_range",
    "C41_monotone",
    "C41_chf",
    "C41_modulus",
    "C41_zero",
    "C41_sample"
   ],
   "note": ""
  },
  {
   "property": "C42",
   "status": "proved",
   "theorems": [
    "C42_paths",
    "C42_no_paths",
    "C42_values",
    "C42_time",
    "C42_cumulative",
    "C42_statistics",
    "C42_extremes",
    "C42_between_paths",
    "C42_between_times"
   ],
   "note": ""
  },
  {
   "property": "C43",
   "status": "proved",
   "theorems": [
    "C43_forward",
    "C43_backward",
    "C43_mid",
    "C43_unknown",
    "C43_start_point_refuted"
   ],
   "note": "C43_start_point_refuted: the documentation assigns x[i] to t[i] in forward mode, where the value is x[i-1]."
  },
  {
   "property": "C44",
   "status": "proved",
   "theorems": [
    "C44_statistics",
    "C44_stderr",
    "C44_succeeds",
    "C44_grouping"
   ],
   "note": "Numbers are reals; samples of any shape, enumerated along any axis, data points all of the same shape. Kurtosis is raw, and -3 with fewer than two paths."
  },
  {
   "property": "C45",
   "status": "proved",
   "theorems": [
    "C45_conservation",
    "C45_given_edges",
    "C45_equal_bins",
    "C45_single",
    "C45_leading_axes_refuted"
   ],
   "note": "The number of bins selected by a method of numpy is an oracle. C45_leading_axes_refuted: a later sample of another shape, that broadcasts to it, may be miscounted."
  },
  {
   "property": "C46",
   "status": "proved",
   "theorems": [
    "C46_even",
    "C46_odd",
    "C46_refused"
   ],
   "note": ""
  },
  {
   "property": "C47",
   "status": "proved",
   "theorems": [
    "C47_density",
    "C47_cdf",
    "C47_pdf",
    "C47_kde_derivative",
    "C47_kde_range",
    "C47_data"
   ],
   "note": "method='interp' with the default kind, and gaussian_kde for a kernel whose cdf has the kernel pdf as its derivative."
  },
  {
   "property": "C48",
   "status": "proved",
   "theorems": [
    "C48_component",
    "C48_no_histogram",
    "C48_update_refused",
    "C48_parent_lost",
    "C48_stale"
   ],
   "note": "Indexing by tuples of non negative integers; a complete index for the statistics."
  },
  {
   "property": "C49",
   "status": "proved",
   "theorems": [
    "C49_unusable",
    "C49_atomic_refuted"
   ],
   "note": "For samples with at least one component. C49_atomic_refuted: a later failing update changes the mean."
  },
  {
   "property": "C50",
   "status": "proved",
   "theorems": [
    "C50_chain",
    "C50_chain_override",
    "C50_at_once",
    "C50_function_made",
    "C50_function_chain"
   ],
   "note": "Any class (with any state and side effects of __init__ and __call__) and any function. A call of an instance with no arguments at all is an evaluation, so chains are of non-empty overrides."
  },
  {
   "property": "C51",
   "status": "proved",
   "theorems": [
    "C51_params_kept",
    "C51_override_keeps",
    "C51_same_result",
    "C51_functions"
   ],
   "note": "Parameters never change, for any class; results are the same again when __call__ of the wrapped class leaves the instance as it is, which functions do."
  },
  {
   "property": "C52",
   "status": "proved",
   "theorems": [
    "C52_class",
    "C52_class_error",
    "C52_class_spec",
    "C52_function",
    "C52_decorator",
    "C52_decorator_error",
    "C52_routing",
    "C52_params"
   ],
   "note": "Any signatures."
  },
  {
   "property": "C53",
   "status": "proved",
   "theorems": [
    "C53_parity",
    "C53_domain"
   ],
   "note": "One element of the (broadcast) arrays at a time; numbers with infinities and nan. The cdf of scipy is any function with Phi(-x) = 1 - Phi(x), and 0, 1 at the infinities."
  },
  {
   "property": "C54",
   "status": "proved",
   "theorems": [
    "C54_no_volatility"
   ],
   "note": "t = 0 or sigma = 0, k, x0 >= 0 not both 0."
  },
  {
   "property": "C55",
   "status": "proved",
   "theorems": [
    "C55_wiener",
    "C55_oruh",
    "C55_exists",
    "C55_start"
   ],
   "note": "The coefficients are obtained by evaluating the model of the sde methods; the law is any family of expectations satisfying Dynkin's equation for x and x^2 (its existence is proved too)."
  },
  {
   "property": "C56",
   "status": "proved",
   "theorems": [
    "C56_lognorm",
    "C56_cir",
    "C56_heston",
    "C56_exists",
    "C56_start"
   ],
   "note": "As C55."
  },
  {
   "property": "C57",
   "status": "proved",
   "theorems": [
    "C57_wiener",
    "C57_lognorm",
    "C57_merton",
    "C57_kou",
    "C57_at_0",
    "C57_heston_at_0",
    "C57_start",
    "C57_bounded",
    "C57_heston_bounded",
    "C57_heston_start"
   ],
   "note": "Heston: k > 0 (for k <= 0 the formula divides by zero at u = 0); modulus for |rho| <= 1, xi <> 0, theta, y0 >= 0."
  },
  {
   "property": "C58",
   "status": "proved",
   "theorems": [
    "C58_sum",
    "C58_law",
    "C58_nonneg",
    "C58_array",
    "C58_vector",
    "C58_scalar",
    "C58_refused"
   ],
   "note": "Both as numbers and as arrays with the shape rules of _hw2f_args_setup."
  },
  {
   "property": "C59",
   "status": "proved",
   "theorems": [
    "C59_merton",
    "C59_kou",
    "C59_jumps",
    "C59_exists"
   ],
   "note": "As C55; the mean exponential of a jump is that of a normal, or of a double exponential, variable."
  },
  {
   "property": "C60",
   "status": "proved",
   "theorems": [
    "C60_call_delta",
    "C60_put_delta",
    "C60_equation"
   ],
   "note": "The cdf of scipy is any function with normal density as its derivative; Phi0 is one."
  },
  {
   "property": "C61",
   "status": "proved",
   "theorems": [
    "C61_exp",
    "C61_normal",
    "C61_uniform",
    "C61_double",
    "C61_misfit",
    "C61_fixed",
    "C61_variable",
    "C61_at_time",
    "C61_rvmap",
    "C61_rvmap_error",
    "C61_jumps",
    "C61_parameter",
    "C61_process",
    "C61_process_rv"
   ],
   "note": "f of rvmap is taken to act on each variate."
  },
  {
   "property": "C62",
   "status": "proved",
   "theorems": [
    "C62_shared",
    "C62_generates",
    "C62_array",
    "C62_refuted"
   ],
   "note": ""
  },
  {
   "property": "C63",
   "status": "proved",
   "theorems": [
    "C63_backward",
    "C63_law",
    "C63_exists"
   ],
   "note": "k > 0, xi <> 0, |rho| <= 1, t >= 0 (xi = 0 divides by 0). The principal logarithm is shown to stay out of its cut. The coefficients are those of the model of heston_sde. A law is any functional for which bounded functions with h_s + L h = 0 give martingales; C63_exists builds one with y0 = theta = 0."
  },
  {
   "property": "C64",
   "status": "proved",
   "theorems": [
    "C64_wiener",
    "C64_oruh",
    "C64_lognorm",
    "C64_hw2f",
    "C64_hw2f_law",
    "C64_negative_refuted",
    "C64_defined"
   ],
   "note": "scipy's norm and lognorm are modelled by their formulas, with nan unless the scale is positive; the normal cdf is any function with the normal density as derivative and limit 0 at minus infinity (there is one: L_gauss). The forward equation of lognorm is that of the logarithm, which the method sde describes. With sigma < 0, where mean, variance and characteristic function are right, the code returns nan for wiener and lognorm (C64_negative_refuted). cir_pdf and the densities computed by numerical Fourier inversion (heston, merton, kou) are not modelled."
  },
  {
   "property": "C65",
   "status": "proved",
   "theorems": [
    "C65_call",
    "C65_put",
    "C65_negative_refuted"
   ],
   "note": "With sigma < 0 bscall returns minus the price of the put (C65_negative_refuted)."
  },
  {
   "property": "C66",
   "status": "proved",
   "theorems": [
    "C66_inferred",
    "C66_inferable",
    "C66_refused",
    "C66_consistent",
    "C66_given",
    "C66_call",
    "C66_call_system",
    "C66_untested",
    "C66_run",
    "C66_undeclared",
    "C66_call_defaults",
    "C66_call_refused"
   ],
   "note": "Functions have positional-or-keyword parameters, values are times or arrays. Runs are those of single equations. C66_untested: a third parameter without default value cannot be tested."
  },
  {
   "property": "C67",
   "status": "proved",
   "theorems": [
    "C67_accepted",
    "C67_fits",
    "C67_wiener",
    "C67_bad_correlation",
    "C67_intensity",
    "C67_poisson",
    "C67_cpoisson",
    "C67_run",
    "C67_jumps",
    "C67_dn_refuted",
    "C67_dn_wrong_refuted"
   ],
   "note": "Source objects are functions of time, interval and generator state that comply with the protocol at single times. C67_run is for single equations. The two refutations are a finding: boolean masks with the shape of the counts."
  },
  {
   "property": "C68",
   "status": "proved",
   "theorems": [
    "C68_fine_steps",
    "C68_fine_timeline",
    "C68_pathwise",
    "C68_converges",
    "C68_wiener_moments",
    "C68_lognorm_moments",
    "C68_oruh_moments"
   ],
   "note": "Path by path for additive noise, with sources whose increments are those of a path; in mean and variance for processes with linear drift, the expected value being any linear functional for which the draws are uncorrelated with mean 0 and variance 1. Real numbers: rounding is not modelled."
  },
  {
   "property": "C69",
   "status": "proved",
   "theorems": [
    "C69_density",
    "C69_law",
    "C69_exists"
   ],
   "note": "scipy.special.iv is any function given by the series of the modified Bessel function of the first kind, with any function given by Euler's integral as gamma; both are proved to exist. The law of the solution is any functional for which bounded solutions of the backward equation give martingales. Values at x = 0 are not covered (a single point)."
  },
  {
   "property": "C70",
   "status": "proved",
   "theorems": [
    "C70_shape",
    "C70_inversion",
    "C70_merton",
    "C70_merton_series",
    "C70_kou",
    "C70_heston",
    "C70_heston_law"
   ],
   "note": "scipy.integrate.quad is any function that gives the value of an improper Riemann integral when there is one: errors of quadrature are not modelled. That the Heston process has a continuous density is an assumption of C70_heston and C70_heston_law; for Merton and Kou the density is constructed."
  },
  {
   "property": "C71",
   "status": "proved",
   "theorems": [
    "C71_wiener",
    "C71_wiener_chf",
    "C71_lognorm",
    "C71_lognorm_chf",
    "C71_lognorm_moments",
    "C71_merton",
    "C71_merton_chf",
    "C71_merton_mean",
    "C71_kou",
    "C71_kou_chf",
    "C71_kou_mean"
   ],
   "note": "Generators are described by means over their random states, of products of functions of the entries of what is drawn; L_law8 builds one. Laws are stated by means of exponentials, at all exponents at which they are finite. Jump diffusions with any getinfo; real arithmetic, no rounding."
  },
  {
   "property": "C72",
   "status": "proved",
   "theorems": [
    "C72_wiener",
    "C72_lognorm",
    "C72_lognorm_product",
    "C72_oruh",
    "C72_hull_white",
    "C72_cov_closed",
    "C72_variances",
    "C72_oruh_chf",
    "C72_hw2f_chf"
   ],
   "note": "Generators are described by means over their random states, as in C71; that of multivariate normal variates by the mean of the exponential of any combination (mvnormal_law), which a generator built in L_gval6 satisfies. Constant parameters and correlations, scheme Euler, i0 = 0; real arithmetic, no rounding."
  },
  {
   "property": "C73",
   "status": "proved",
   "theorems": [
    "C73_values",
    "C73_outcome",
    "C73_presets",
    "C73_negative_y"
   ],
   "note": "Info methods see the iteration variables and change info only: they are modelled as unable to alter itervars, arrays or sources. Generic numbers and times."
  },
  {
   "property": "C74",
   "status": "proved",
   "theorems": [
    "C74_wiener",
    "C74_lognorm",
    "C74_oruh",
    "C74_hull_white",
    "C74_wiener_limit",
    "C74_lognorm_limit",
    "C74_oruh_limit",
    "C74_hull_white_limit",
    "C74_mean_ode",
    "C74_cov_ode",
    "C74_cov_times",
    "C74_constant"
   ],
   "note": "Real arithmetic; generators described by the law of their draws, as for C71 and C72. The bound e is uniform over entries. x0 is constant in time, as in the code. Pairs of paths are opposite if sigma (and k, for mean reverting processes) are the same on the two paths."
  },
  {
   "property": "C75",
   "status": "proved",
   "theorems": [
    "C75_runs",
    "C75_mean",
    "C75_square",
    "C75_var",
    "C75_negative",
    "C75_law",
    "C75_converges"
   ],
   "note": "Real arithmetic; generators described by the law of their draws, as for C71, C72 and C74. Parameters are constant in time, arrays or not; correlations and rho are not given. theta and k are positive; the density needs x0 > 0 and xi <> 0. Steps are no longer than 1/(4k) (shorter, for the Laplace transform and the limit)."
  },
  {
   "property": "C76",
   "status": "proved",
   "theorems": [
    "C76_runs",
    "C76_price",
    "C76_log_mean",
    "C76_log_square",
    "C76_log_var",
    "C76_log_chf",
    "C76_variance_moments",
    "C76_variance_negative"
   ],
   "note": "Real arithmetic; generators described by the joint law of two entries of a draw, for functions that are continuous and grow as exponentials at most. Parameters are constant in time, arrays or not; the correlation of price and variance is constant, that set by corr or rho, or none. theta, k and x0 are positive, y0 is not negative, xi <> 0 for the characteristic function. Steps are no longer than 1 and 1/(4k) (shorter, for the characteristic function), except for the mean of the price."
  },
  {
   "property": "C77",
   "status": "proved",
   "theorems": [
    "C77_setting",
    "C77_classes",
    "C77_class_kfuncs",
    "C77_functions",
    "C77_hw1f",
    "C77_transparent",
    "C77_instance",
    "C77_documented",
    "C77_all_documented",
    "C77_consistent",
    "C77_corresponding"
   ],
   "note": "Signatures are tables taken from the source; documented ones are from docstrings and apidoc.rst. A zero correlation of an analytical function stands for no correlation of the process, and a pair of equal values of hw2f functions for one value of hull_white_process. Functions are any functions of variables and keywords that do not depend on the order of keywords."
  },
  {
   "property": "C78",
   "status": "proved",
   "theorems": [
    "C78_heston_integral",
    "C78_variances",
    "C78_start",
    "C78_deviations",
    "C78_two_factors",
    "C78_closed"
   ],
   "note": "Real arithmetic, one value of t and of the parameters at a time, except for hw2f_std, on arrays."
  },
  {
   "property": "C79",
   "status": "proved",
   "theorems": [
    "C79_wiener",
    "C79_steps",
    "C79_lognorm",
    "C79_cir",
    "C79_exact_refuted"
   ],
   "note": "Times, parameters and values are binary64 numbers (Flocq), rounded to nearest even; the source is any with a given error; exp and log any functions, for lognormal processes with exp of a given relative accuracy. C79_exact_refuted: values do depend on steps, in the last digits, so that the exact independence of steps (C08) holds for real numbers only. C79_cir: coefficients of CIR processes, with the truncated square root, are correctly rounded and are NaN only if the value is."
  },
  {
   "property": "C80",
   "status": "proved",
   "theorems": [
    "C80_wiener",
    "C80_wiener_independent",
    "C80_wiener_pdf",
    "C80_wiener_average",
    "C80_lognorm",
    "C80_lognorm_independent",
    "C80_lognorm_pdf",
    "C80_lognorm_average",
    "C80_call",
    "C80_put",
    "C80_call_average",
    "C80_oruh_limit",
    "C80_oruh",
    "C80_wiener_limit",
    "C80_lognorm_limit"
   ],
   "note": "For sources without corr and rho. C72 and C74 give the joint Gaussian law by exponential moments; here means are of all functions of at most exponential growth, of one value, or of products of functions of the values at one time. Averages over paths assume that means of sums of products of functions of normal variates are those of a linear integral (normal_sums), which holds for the example law."
  },
  {
   "property": "C81",
   "status": "proved",
   "theorems": [
    "C81_wiener",
    "C81_wiener_between",
    "C81_wiener_joint",
    "C81_wiener_fraction",
    "C81_lognorm",
    "C81_exercise",
    "C81_lognorm_joint",
    "C81_lognorm_fraction",
    "C81_oruh_limit",
    "C81_oruh",
    "C81_wiener_limit",
    "C81_lognorm_limit"
   ],
   "note": "For sources without corr and rho; a probability is the mean of a function with values 0 and 1. Fractions of paths assume normal_sums, as in C80, which holds for the example law."
  },
  {
   "property": "C82",
   "status": "proved",
   "theorems": [
    "C82_result",
    "C82_accepted",
    "C82_wiener",
    "C82_wiener_cdf",
    "C82_wiener_chf",
    "C82_wiener_montecarlo",
    "C82_lognorm",
    "C82_lognorm_cdf",
    "C82_lognorm_montecarlo",
    "C82_call",
    "C82_put"
   ],
   "note": "For sources without corr, rho and antithetics, with the same parameters on all paths of the component; assumes normal_sums, as in C80, which holds for the example law."
  },
  {
   "property": "C83",
   "status": "proved",
   "theorems": [
    "C83_accepted",
    "C83_wiener_mirror",
    "C83_lognorm_mirror",
    "C83_wiener_even",
    "C83_wiener_all",
    "C83_wiener_exact",
    "C83_lognorm_even",
    "C83_lognorm_all",
    "C83_call",
    "C83_oruh_mirror",
    "C83_wiener_var_mirror",
    "C83_oruh_limit",
    "C83_oruh",
    "C83_put"
   ],
   "note": "For antithetic sources without corr and rho, with the same parameters on all paths of the component; assumes normal_sums, as in C80, which holds for the example law."
  },
  {
   "property": "C84",
   "status": "proved",
   "theorems": [
    "C84_oruh"
   ],
   "note": "On the model of C79 (binary64, round to nearest even), for times that are finite numbers and any source with a given error; the bound holds for values that are finite, and values are finite if data are in a given range (stable_range)."
  },
  {
   "property": "C85",
   "status": "proved",
   "theorems": [
    "C85_mean",
    "C85_accepted",
    "C85_grouping",
    "C85_exact_refuted"
   ],
   "note": "On the model of montecarlo with double precision numbers, use='all', at most 2^52 data points; sums of a sample are sequential in the model (NumPy's are pairwise). Equality of means of differently grouped values is refuted."
  }
 ]
}