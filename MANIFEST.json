{
 "claims": [
  {
   "property": "C01",
   "status": "proved",
   "theorems": [
    "C01_reflections",
    "C01_unique"
   ],
   "note": "All layers, all source/receiver layers, complex eta/zeta. Includes the shifted storage in the two corner cases described in DESIGN.md (findings)."
  },
  {
   "property": "C02",
   "status": "proved",
   "theorems": [
    "C02_continuity"
   ],
   "note": ""
  },
  {
   "property": "C03",
   "status": "proved",
   "theorems": [
    "C03_greens_function",
    "C03_solvable"
   ],
   "note": "P,Q are any solution of the two-point problem; existence in C03_solvable, uniqueness in bvp_unique_all."
  },
  {
   "property": "C04",
   "status": "proved",
   "theorems": [
    "C04_artificial_interface"
   ],
   "note": ""
  },
  {
   "property": "C05",
   "status": "proved",
   "theorems": [
    "C05_uniform_stack"
   ],
   "note": ""
  },
  {
   "property": "C06",
   "status": "proved",
   "theorems": [
    "C06_translation",
    "C06_dipole",
    "C06_dipole_k",
    "C06_bipole"
   ],
   "note": "Kernel level, and the routines dipole, dipole_k and bipole with digital linear filters. Finite bipoles are not covered at the level of the routine: their coordinates are rounded when azimuth and dip are formed."
  },
  {
   "property": "C07",
   "status": "proved",
   "theorems": [
    "C07_reciprocity",
    "C07_spectrum"
   ],
   "note": ""
  },
  {
   "property": "C08",
   "status": "proved",
   "theorems": [
    "C08_mirror"
   ],
   "note": ""
  },
  {
   "property": "C09",
   "status": "proved",
   "theorems": [
    "C09_total",
    "C09_bounded",
    "C09_real_is_passive"
   ],
   "note": "Totality for every passive medium (complex); bound |R|<1 for real positive media."
  },
  {
   "property": "C10",
   "status": "proved",
   "theorems": [
    "C10_magnetic_magnetic",
    "C10_magnetic_electric",
    "C10_angle",
    "C10_others_unaffected"
   ],
   "note": ""
  },
  {
   "property": "C11",
   "status": "proved",
   "theorems": [
    "C11_direct_switch"
   ],
   "note": ""
  },
  {
   "property": "C12",
   "status": "proved",
   "theorems": [
    "C12_wavenumber",
    "C12_frequency",
    "C12_time"
   ],
   "note": "Frequency domain for any transform; time domain for linear transforms; wavenumber domain for every call of dipole_k."
  },
  {
   "property": "C13",
   "status": "proved",
   "theorems": [
    "C13_bessel",
    "C13_angle_factor"
   ],
   "note": "J0 and J1 by their integral representations; angle_factor differs from the exact factor by at most 1e-9 because of its zero correction."
  },
  {
   "property": "C14",
   "status": "proved",
   "theorems": [
    "C14_filter_sum",
    "C14_batching"
   ],
   "note": ""
  },
  {
   "property": "C15",
   "status": "proved",
   "theorems": [
    "C15_grid",
    "C15_transform"
   ],
   "note": "Filter base assumed geometric with ratio f_factor, as in the shipped filters. Interpolation is any linear interpolator."
  },
  {
   "property": "C16",
   "status": "proved",
   "theorems": [
    "C16_standard",
    "C16_lagged",
    "C16_splined"
   ],
   "note": ""
  },
  {
   "property": "C17",
   "status": "proved",
   "theorems": [
    "C17_loops",
    "C17_dlf",
    "C17_flags"
   ],
   "note": "Any separable transform; the standard DLF over passive layered media is shown to be one. Flags for every transform."
  },
  {
   "property": "C18",
   "status": "partial",
   "theorems": [
    "C18_returned_partial",
    "C18_early_refuted",
    "C18_geometric"
   ],
   "note": "False as stated: an element that converges in the third interval returns zero (C18_early_refuted). Proved for later intervals: the returned value is the previous extrapolant, within tolerance."
  },
  {
   "property": "C19",
   "status": "partial",
   "theorems": [
    "C19_qwe",
    "C19_quad_partial",
    "C19_quad_refuted"
   ],
   "note": "QWE proved. QUAD: only the real part is looked at (C19_quad_partial, C19_quad_refuted)."
  },
  {
   "property": "C20",
   "status": "proved",
   "theorems": [
    "C20_fft",
    "C20_fftlog",
    "C20_linear",
    "C20_columnwise",
    "C20_step",
    "C20_off",
    "C20_dlf_standard",
    "C20_dlf_lagged",
    "C20_dlf_splined"
   ],
   "note": "The relation between switch-off and DC is part of kernel.halfspace (C38). Linearity of the three DLF variants, FFT and FFTLog proved; QWE is not linear (its stopping test depends on the values)."
  },
  {
   "property": "C21",
   "status": "proved",
   "theorems": [
    "C21_convolution",
    "C21_exact",
    "C21_constant"
   ],
   "note": ""
  },
  {
   "property": "C22",
   "status": "partial",
   "theorems": [
    "C22_fft_length",
    "C22_large_refuted"
   ],
   "note": "Proved up to 2^29 requested frequencies; above that the statement is false, the automatic length is 1 (C22_large_refuted)."
  },
  {
   "property": "C23",
   "status": "proved",
   "theorems": [
    "C23_one_layer",
    "C23_checked",
    "C23_interface"
   ],
   "note": "Weakly increasing interfaces included; C23_checked: every model accepted by check_model."
  },
  {
   "property": "C24",
   "status": "partial",
   "theorems": [
    "C24_accepted",
    "C24_normalised",
    "C24_strict",
    "C24_bottom_up",
    "C24_fullspace",
    "C24_values",
    "C24_infinity_refuted",
    "C24_duplicates_refuted"
   ],
   "note": "All parts proved for distinct interfaces. Two clauses are false for repeated interfaces, shown by the _refuted theorems: [1, inf, inf] keeps an infinite depth, and repeated depths are accepted top-down but rejected bottom-up."
  },
  {
   "property": "C25",
   "status": "proved",
   "theorems": [
    "C25_clipping",
    "C25_history"
   ],
   "note": ""
  },
  {
   "property": "C26",
   "status": "proved",
   "theorems": [
    "C26_accept",
    "C26_reject"
   ],
   "note": ""
  },
  {
   "property": "C27",
   "status": "proved",
   "theorems": [
    "C27_bipole",
    "C27_contraction",
    "C27_exact"
   ],
   "note": "Error bound max(1e-8, min_angle) times the sum of the moduli of the tensor components; exact without thresholds. C27_bipole: the same bound for the routine bipole against nine calls of dipole."
  },
  {
   "property": "C28",
   "status": "proved",
   "theorems": [
    "C28_points",
    "C28_depths",
    "C28_direction",
    "C28_between",
    "C28_rounding",
    "C28_precision",
    "C28_weights",
    "C28_midpoint"
   ],
   "note": "Gauss-Legendre nodes and weights are arguments; the weights are assumed to sum to 2 in C28_weights, nodes to lie in [-1,1] in C28_between."
  },
  {
   "property": "C29",
   "status": "proved",
   "theorems": [
    "C29_placement",
    "C29_filter",
    "C29_time",
    "C29_total",
    "C29_qwe",
    "C29_quad",
    "C29_qwe_total",
    "C29_quad_total"
   ],
   "note": "For any Hankel transform that treats offsets separately, the digital filter included; also in the time domain with any Fourier transform and waveform. Azimuths and dips within 1e-8 rad of a multiple of 90 degrees must be exact multiples: otherwise the component list of the single call may differ."
  },
  {
   "property": "C30",
   "status": "proved",
   "theorems": [
    "C30_bipole",
    "C30_axis_aligned"
   ],
   "note": "C30_bipole is the statement about the two routines."
  },
  {
   "property": "C31",
   "status": "partial",
   "theorems": [
    "C31_scaling",
    "C31_length",
    "C31_nonpositive",
    "C31_negative_refuted"
   ],
   "note": "Exact for every positive strength and any Hankel transform. Negative strengths are treated as zero, shown by C31_negative_refuted."
  },
  {
   "property": "C32",
   "status": "partial",
   "theorems": [
    "C32_names",
    "C32_rejects",
    "C32_undocumented_refuted",
    "C32_quad_settings",
    "C32_qwe_settings",
    "C32_dlf_settings"
   ],
   "note": "False as stated: every substring of 'quad', such as the empty name, is accepted too (C32_undocumented_refuted). Proved: the exact set of accepted names, rejection of all others, and the settings."
  },
  {
   "property": "C33",
   "status": "partial",
   "theorems": [
    "C33_rejects",
    "C33_accepts",
    "C33_sincos_refuted",
    "C33_signal",
    "C33_real_signal",
    "C33_waveform_signal_refuted",
    "C33_kind"
   ],
   "note": "False as stated: 'sin' and 'cos', documented in the modelling routines, are rejected (C33_sincos_refuted), and a waveform may carry any signal (C33_waveform_signal_refuted). Proved: the exact sets of accepted names and signals and the choice of sine or cosine."
  },
  {
   "property": "C34",
   "status": "proved",
   "theorems": [
    "C34_get_kwargs"
   ],
   "note": ""
  },
  {
   "property": "C35",
   "status": "proved",
   "theorems": [
    "C35_parameters",
    "C35_passive"
   ],
   "note": ""
  },
  {
   "property": "C36",
   "status": "partial",
   "theorems": [
    "C36_angle",
    "C36_raw",
    "C36_unwrap",
    "C36_step",
    "C36_lead",
    "C36_degrees",
    "C36_length",
    "C36_real_refuted"
   ],
   "note": "Proved for complex data. For real (time-domain) arrays lead is not minus lag (C36_real_refuted)."
  },
  {
   "property": "C37",
   "status": "proved",
   "theorems": [
    "C37_offsets"
   ],
   "note": ""
  },
  {
   "property": "C38",
   "status": "partial",
   "theorems": [
    "C38_routine",
    "C38_rejected",
    "C38_sums",
    "C38_switch_off",
    "C38_lengths",
    "C38_dc_refuted"
   ],
   "note": "Parts proved. The DC value of the switch-off response is the switch-on value at 1e4 s, not the limit (C38_dc_refuted)."
  },
  {
   "property": "C39",
   "status": "partial",
   "theorems": [
    "C39_exchange",
    "C39_rotation",
    "C39_dual_mixed",
    "C39_dual_magnetic",
    "C39_dual_conductive",
    "C39_magnetic_refuted",
    "C39_laplace_refuted"
   ],
   "note": "Exchange, rotation and duality proved. Duality of two magnetic dipoles needs positive permittivity: false for zero permittivity in VTI media (C39_magnetic_refuted), and not a number in the Laplace domain (C39_laplace_refuted)."
  },
  {
   "property": "C40",
   "status": "partial",
   "theorems": [
    "C40_agreement_partial",
    "C40_other_codes_refuted"
   ],
   "note": "Proved for 24 of the 36 codes (all with a digital-filter Hankel transform). For the other twelve, 41, 42, 44, 45, 46, 51, 52, 53, 54, 55, 62, 64, the code uses the angle factor (or the division by the offset) of the wrong component; each is refuted with a witness."
  },
  {
   "property": "C41",
   "status": "partial",
   "theorems": [
    "C41_gain",
    "C41_default_refuted"
   ],
   "note": "The gain factor is proved for every given gain; the documented default (no gain) raises TypeError for every input."
  },
  {
   "property": "C42",
   "status": "partial",
   "theorems": [
    "C42_ratio",
    "C42_dictionary_refuted",
    "C42_string_refuted"
   ],
   "note": "Proved for numeric codes with array resistivities and non-zero primary field. Refuted for codes given as strings (primary field of the cross component) and for layered resistivities given as a dictionary (always an error)."
  },
  {
   "property": "C43",
   "status": "partial",
   "theorems": [
    "C43_accesses",
    "C43_first_access_only",
    "C43_calls_refuted"
   ],
   "note": "Results do not depend on earlier accesses and the two kinds are never mixed up: proved for every sequence. The library function is called in the first access only, but once per array (C43_calls_refuted), so whether a file is read once depends on caching inside libdlf, which is not part of the repository."
  },
  {
   "property": "C44",
   "status": "partial",
   "theorems": [
    "C44_round_trip_partial",
    "C44_stale_refuted",
    "C44_short_refuted"
   ],
   "note": "Proved for any number format that reads back what it writes, provided no stale coefficient files exist and the base has at least two points. Stale files are picked up (C44_stale_refuted) and a base with one point cannot be loaded (C44_short_refuted)."
  },
  {
   "property": "C45",
   "status": "partial",
   "theorems": [
    "C45_round_trip_partial",
    "C45_one_shift_refuted"
   ],
   "note": "Proved for every number of spacing values and two or more shift values; with one shift value loading raises IndexError (C45_one_shift_refuted)."
  },
  {
   "property": "C46",
   "status": "partial",
   "theorems": [
    "C46_points",
    "C46_equal_ends_refuted"
   ],
   "note": "Proved in exact arithmetic for distinct ends; equal ends give a single point (C46_equal_ends_refuted)."
  },
  {
   "property": "C47",
   "status": "partial",
   "theorems": [
    "C47_text",
    "C47_json_real",
    "C47_json_complex",
    "C47_inf_refuted",
    "C47_empty_refuted"
   ],
   "note": "Text and JSON, real and complex, for any number format that reads back what it writes. Exceptions: empty dimensions, and complex values with infinite imaginary part in JSON; negative zeros may lose their sign in complex JSON data."
  },
  {
   "property": "C48",
   "status": "partial",
   "theorems": [
    "C48_round_trip",
    "C48_empty_refuted"
   ],
   "note": "Proved for every non-empty dictionary of JSON values with distinct keys; the empty dictionary is written as invalid JSON (C48_empty_refuted)."
  },
  {
   "property": "C49",
   "status": "partial",
   "theorems": [
    "C49_runs",
    "C49_calls",
    "C49_writes",
    "C49_errors",
    "C49_informs",
    "C49_explicit_refuted"
   ],
   "note": "Proved for all argument lists of the console script and all outcomes of the routine. Calling main(args) explicitly depends on the length of sys.argv instead (C49_explicit_refuted)."
  },
  {
   "property": "C50",
   "status": "proved",
   "theorems": [
    "C50_sum",
    "C50_corrections"
   ],
   "note": "Against the model of dipole with the same filter, plain resistivities and xdirect=False."
  },
  {
   "property": "C51",
   "status": "partial",
   "theorems": [
    "C51_shift_partial",
    "C51_sum",
    "C51_moves",
    "C51_refuted"
   ],
   "note": "False as stated (C51_refuted): the correction of the part '+-' depends on the absolute depths. Proved: the other four parts of each mode and the total are invariant, and all parts when the source is in the first layer."
  },
  {
   "property": "C52",
   "status": "proved",
   "theorems": [
    "C52_sum_zero",
    "C52_constants",
    "C52_step",
    "C52_impulse",
    "C52_linear"
   ],
   "note": ""
  },
  {
   "property": "C53",
   "status": "partial",
   "theorems": [
    "C53_pairs",
    "C53_inverse",
    "C53_inverse_refuted",
    "C53_names"
   ],
   "note": "All six pairs proved for inverse=False. With inverse=True the claim is false for every pair and argument (C53_inverse_refuted): the sides are exchanged without the factor 2/pi; C53_inverse proves the exact factor."
  },
  {
   "property": "C54",
   "status": "proved",
   "theorems": [
    "C54_dipoles",
    "C54_bipoles",
    "C54_points",
    "C54_wrong_length"
   ],
   "note": "Electric/magnetic type handling of check_bipole is not part of the model."
  },
  {
   "property": "C55",
   "status": "proved",
   "theorems": [
    "C55_electric",
    "C55_magnetic"
   ],
   "note": "Electric sources: all passive media, frequency and Laplace domain. Magnetic sources: positive permittivity and permeability in the frequency domain (see C39 for what happens otherwise)."
  },
  {
   "property": "C56",
   "status": "proved",
   "theorems": [
    "C56_electric",
    "C56_magnetic"
   ],
   "note": "Magnetic sources: positive permittivity and permeability in the frequency domain."
  },
  {
   "property": "C57",
   "status": "proved",
   "theorems": [
    "C57_diffusive_is_full"
   ],
   "note": "At the level of analytical; hypothesis: positive minimum values."
  },
  {
   "property": "C58",
   "status": "proved",
   "theorems": [
    "C58_impulse_is_derivative",
    "C58_laplace_of_impulse"
   ],
   "note": "Direct and reflected TE and TM parts; the airwave (Bessel functions, Gaver-Stehfest) is not covered."
  },
  {
   "property": "C59",
   "status": "proved",
   "theorems": [
    "C59_analytical_is_dipole"
   ],
   "note": ""
  },
  {
   "property": "C60",
   "status": "partial",
   "theorems": [
    "C60_mperm",
    "C60_eperm_refuted",
    "C60_list_refuted"
   ],
   "note": "Permeabilities: proved. Permittivities do enter (C60_eperm_refuted) and lists of frequencies are rejected (C60_list_refuted)."
  },
  {
   "property": "C61",
   "status": "partial",
   "theorems": [
    "C61_spline",
    "C61_fft",
    "C61_fftlog",
    "C61_qwe_refuted"
   ],
   "note": "Proved for the splined filter, FFT and FFTLog. False for QWE, whose lowest frequencies are extrapolated (C61_qwe_refuted)."
  },
  {
   "property": "C62",
   "status": "proved",
   "theorems": [
    "C62_real",
    "C62_diffusive",
    "C62_names"
   ],
   "note": "Sommerfeld integral and its relatives proved from the integral representation of J0 and J1; mu_0 is a positive argument."
  },
  {
   "property": "C63",
   "status": "proved",
   "theorems": [
    "C63_densities",
    "C63_dipoles"
   ],
   "note": "A finite bipole that crosses an interface has no single factor and is not covered; every integration point is then weighted with its own layer."
  },
  {
   "property": "C64",
   "status": "proved",
   "theorems": [
    "C64_mirror",
    "C64_surface",
    "C64_exchange",
    "C64_rotation",
    "C64_rotation_vertical",
    "C64_static"
   ],
   "note": "scipy's ive and kve are parameters; only the static limit assumes something of them (their values near zero)."
  },
  {
   "property": "C65",
   "status": "proved",
   "theorems": [
    "C65_homogeneous",
    "C65_unique"
   ],
   "note": "Two magnetic dipoles: frequency domain and positive permittivity (the closed form has the wrong sign otherwise, C39_magnetic_refuted)."
  },
  {
   "property": "C66",
   "status": "proved",
   "theorems": [
    "C66_direct_field",
    "C66_other_layer"
   ],
   "note": ""
  },
  {
   "property": "C67",
   "status": "partial",
   "theorems": [
    "C67_value",
    "C67_nodes",
    "C67_shift_refuted",
    "C67_error"
   ],
   "note": "False as stated (C67_shift_refuted): the positive frequencies enter two steps too low and the first is missing. Proved: the exact sum computed (C67_value, C67_nodes) and a bound for the difference, proportional to the frequency step times the time (C67_error)."
  },
  {
   "property": "C68",
   "status": "partial",
   "theorems": [
    "C68_value",
    "C68_factors",
    "C68_harmonic",
    "C68_norm",
    "C68_odd_refuted",
    "C68_odd",
    "C68_bias_refuted",
    "C68_bias",
    "C68_bias_two"
   ],
   "note": "Proved for unbiased transforms with an even number of points, and for all harmonics below the highest in general. Odd numbers of points leave the highest harmonic unrotated (C68_odd, C68_odd_refuted); biased transforms use the factor of another harmonic (C68_bias, C68_bias_refuted) and raise IndexError for two points."
  },
  {
   "property": "C69",
   "status": "partial",
   "theorems": [
    "C69_each",
    "C69_nodes",
    "C69_sine",
    "C69_cosine",
    "C69_half_periods_refuted"
   ],
   "note": "Independence of the times proved (C69_each). The half-period clause is false (C69_half_periods_refuted): single nodes are extrapolated, for which exact values and sums are proved (C69_nodes, C69_sine, C69_cosine)."
  },
  {
   "property": "C70",
   "status": "partial",
   "theorems": [
    "C70_zeros",
    "C70_newton",
    "C70_plain",
    "C70_layered",
    "C70_spline",
    "C70_decay",
    "C70_extremes",
    "C70_alone_refuted",
    "C70_outside",
    "C70_quad",
    "C70_quad_integral",
    "C70_adaptive"
   ],
   "note": "Independence of the offsets holds without interpolation and for the adaptive transform; with interpolation it is false (C70_alone_refuted), and proved up to the smallest and largest offset (C70_extremes). Convergence of the extrapolation to the improper integral is not proved for layered kernels; C88 bounds the error given a rate of convergence."
  },
  {
   "property": "C71",
   "status": "proved",
   "theorems": [
    "C71_base",
    "C71_points",
    "C71_least_squares",
    "C71_failure",
    "C71_exact"
   ],
   "note": "Exact arithmetic; the contracts of numpy.linalg.qr and solve are hypotheses, met by a library for one column in the example."
  },
  {
   "property": "C72",
   "status": "partial",
   "theorems": [
    "C72_rating",
    "C72_count",
    "C72_together",
    "C72_together_r",
    "C72_more_errors_refuted",
    "C72_within_refuted",
    "C72_useless_refuted",
    "C72_search",
    "C72_first",
    "C72_default",
    "C72_repeat_refuted",
    "C72_same_refuted",
    "C72_twice"
   ],
   "note": "Refuted in part: more failing points can give a better rating, points before the rated one can be off, a filter useless for one of several pairs can get a finite rating, and with fC given the pairs are overwritten (a second call, or fC=fI, fails). The rest is proved as stated, for a rating by distance also the rating of several pairs."
  },
  {
   "property": "C73",
   "status": "proved",
   "theorems": [
    "C73_names",
    "C73_list",
    "C73_filter",
    "C73_quadrature",
    "C73_same_layer",
    "C73_fullspace"
   ],
   "note": "One frequency; the distances of the right-hand side one by one (with pts_per_dec=0 the same as together, C70). The pair is consistent for j2 only if the minimum offset is not above 1 m, at which the left-hand side is evaluated; this is a hypothesis."
  },
  {
   "property": "C74",
   "status": "partial",
   "theorems": [
    "C74_limit",
    "C74_jump_refuted",
    "C74_impulse_refuted"
   ],
   "note": "True for seven of the nine components and the airwave. False for xx and yy (C74_jump_refuted): the value at zero offset lacks the inductive term of the source and of its image, exact difference in C74_limit. The impulse response of the horizontal components is nan (C74_impulse_refuted). The scaled Bessel functions are assumed continuous along rays."
  },
  {
   "property": "C75",
   "status": "proved",
   "theorems": [
    "C75_frequency",
    "C75_sum",
    "C75_step",
    "C75_impulse",
    "C75_impulse_airwave",
    "C75_impulse_sum",
    "C75_switch_off"
   ],
   "note": "The scaled Bessel functions are assumed to satisfy the derivative formulas of modified Bessel functions along rays (bessel_mod; met by power series, BesselMod.v). The airwave of the step response (a Gaver-Stehfest sum) is not covered. Finding: the switch-off response is the step response at 10^4 s minus the step response, so its curl curl is off by mu0 sigma times the impulse response at 10^4 s (C75_switch_off)."
  },
  {
   "property": "C76",
   "status": "proved",
   "theorems": [
    "C76_converges",
    "C76_reflected",
    "C76_decay",
    "C76_truncation"
   ],
   "note": "The limit is over the exact integral; how well QWE, QUAD or DLF approximate it is C20, C29, C69 and C70."
  },
  {
   "property": "C77",
   "status": "proved",
   "theorems": [
    "C77_maxwell",
    "C77_any",
    "C77_continuous"
   ],
   "note": "Exact integrals; the zero offset and the source depth itself are excluded. Uniqueness of the solution in space is not stated here."
  },
  {
   "property": "C78",
   "status": "proved",
   "theorems": [
    "C78_reciprocity",
    "C78_duality",
    "C78_mirror",
    "C78_rotation",
    "C78_reflection",
    "C78_translation",
    "C78_artificial_interface"
   ],
   "note": "Direct field in the wavenumber domain (xdirect=False); with xdirect=True the same holds where C66 identifies the two."
  },
  {
   "property": "C79",
   "status": "proved",
   "theorems": [
    "C79_reflected",
    "C79_total",
    "C79_agree"
   ],
   "note": "Source strictly inside a layer; exact integrals over all wavenumbers, as in C76-C78."
  },
  {
   "property": "C80",
   "status": "proved",
   "theorems": [
    "C80_scaling",
    "C80_lengths"
   ],
   "note": "Exact integrals over all wavenumbers, as in C76-C79; xdirect=False."
  },
  {
   "property": "C81",
   "status": "proved",
   "theorems": [
    "C81_conjugate",
    "C81_negative_frequency",
    "C81_laplace_real"
   ],
   "note": "Exact integrals over all wavenumbers, as in C76-C79; xdirect=False. The transforms themselves are in C67-C69."
  },
  {
   "property": "C82",
   "status": "proved",
   "theorems": [
    "C82_kernel",
    "C82_space"
   ],
   "note": "The inserted layer must be passive like the others (positive real admittivity, non-negative real impedivity). That check_model accepts repeated depths for a top-down model is in C24_duplicates_refuted. In space: exact integrals over all wavenumbers, as in C76-C81."
  },
  {
   "property": "C83",
   "status": "proved",
   "theorems": [
    "C83_modes",
    "C83_power"
   ],
   "note": "Wavenumber domain, horizontal dipoles; the field of a vertical dipole at its own depth contains a delta function that the kernel leaves out."
  },
  {
   "property": "C84",
   "status": "proved",
   "theorems": [
    "C84_kernel",
    "C84_space",
    "C84_above"
   ],
   "note": "In space for source and receiver at different depths; moving the layers above: inside layers, off the axis through the source."
  },
  {
   "property": "C85",
   "status": "proved",
   "theorems": [
    "C85_describes",
    "C85_plain",
    "C85_bottom_up",
    "C85_bandpass",
    "C85_bandpass_time",
    "C85_dipole_k",
    "C85_loop"
   ],
   "note": "dipole_k accepts a dictionary and takes no notice of its functions (C85_dipole_k). Functions that raise or change other local variables are not modelled."
  },
  {
   "property": "C86",
   "status": "proved",
   "theorems": [
    "C86_limit",
    "C86_kernel",
    "C86_interface",
    "C86_model",
    "C86_survey",
    "C86_time",
    "C86_zero"
   ],
   "note": "The frequency zero is excluded: it counts as a Laplace parameter, so zeta jumps there from imaginary to real values (C86_zero). The angle factor is an input of the theorem: the code sets it to zero near its zeros, which makes a jump of at most about 1e-9. Continuity of the exact improper integral is C87."
  },
  {
   "property": "C87",
   "status": "proved",
   "theorems": [
    "C87_medium",
    "C87_limit",
    "C87_model",
    "C87_rows",
    "C87_reflected",
    "C87_reflected_limit"
   ],
   "note": "Stated for the exact integral, not for what the numerical transforms return (C86 has the digital linear filter). The angle factor is the exact cosine or sine. For the full field source and receiver at the same depth are excluded: the integral converges there only conditionally, if at all; the reflected part has no such exception."
  },
  {
   "property": "C88",
   "status": "proved",
   "theorems": [
    "C88_error",
    "C88_geometric",
    "C88_hankel",
    "C88_sums"
   ],
   "note": "The rate q is a hypothesis: that the epsilon algorithm accelerates the series of an arbitrary layered medium is not proved. Elements that meet their tolerance in the third interval are excluded, they return zero (C18_early_refuted), as are extrapolated sums that are exactly zero or have the largest double as real part."
  },
  {
   "property": "C89",
   "status": "proved",
   "theorems": [
    "C89_fullspace",
    "C89_total",
    "C89_limit",
    "C89_model",
    "C89_model_limit"
   ],
   "note": "Two magnetic dipoles need an eta with positive imaginary part and the frequency domain, as in C66; without these fullspace does not return the solution (C39_dual_conductive, C39_laplace_refuted). Exact reflected field, not the numerical transforms."
  },
  {
   "property": "C90",
   "status": "proved",
   "theorems": [
    "C90_contrast",
    "C90_homogeneous",
    "C90_model",
    "C90_model_homogeneous",
    "C90_model_total",
    "C90_model_interface"
   ],
   "note": "Exact integrals, not the numerical transforms; no rate of convergence is given. Two magnetic dipoles and the full-space solution need the conditions of C66, as in C89."
  }
 ]
}