# Formal model of empymod in Rocq (Coq 8.16.1)

Source: emsig/empymod, read as text from `/repo` (never executed here).
Model and proofs: `/verif/rocq/theories/`. Properties: `/verif/properties.jsonl`.
Status per property: `/verif/MANIFEST.json`. Mutation log: `/verif/seeded/LOG.jsonl`.

## 1. Approach

* Shallow embedding. Each Python function becomes a total Gallina function,
  branch by branch. Raised exceptions are values (`Err`), not aborts.
* Two tiers of numbers.
  * Discrete code (layer search, component tables, index arithmetic, file
    formats, loop structure) uses `Z`, `nat`, lists and strings, or an
    arbitrary element type with the few operations used.
  * The analytical code uses the reals `R` of the standard library and the
    complex numbers `C` of Coquelicot. `exp` and the principal square root on
    `C`, and the Bessel functions J0 and J1 (by their integral
    representations), are defined here. They are not assumed.
* Floating point is replaced by exact arithmetic. Infinity is kept where the
  code relies on it (the first entry of `depth`, `exp(-Gamma*inf) = 0`).
  Thresholds that exist because of floating point (`min_off`, `min_angle`,
  `np.round`, `np.isclose`) are modelled as written; the theorems state the
  resulting error bounds.
* Numpy broadcasting over frequency, offset and wavenumber is modelled
  pointwise: the kernel loops over these axes are independent per element.
* Divisions go through a checked division that returns `Err ZeroDivision`
  where a zero divisor would produce `nan`/`inf` in Python. Totality theorems
  (C09, C29_total) show that this does not happen for admissible input.
* External routines (spline, `scipy.integrate.quad`, Gauss-Legendre nodes,
  `scipy.special`, number formatting, file system) are arguments of the
  model functions. A theorem states the facts it needs about them as
  hypotheses.

Layout of `rocq/theories/` (order of `_CoqProject`):

* Model files, definitions only: `PyBase`, `CBase`, `Kernel`, `Utils`,
  `UtilsArgs`, `UtilsAb`, `Transform`, `Fullspace`, `Halfspace`, `Stehfest`,
  `Model`, `Routines`, `RoutinesK`, `Bipole`, `Text`, `Json`, `DataIo`,
  `FilterIo`, `Cli`, `Tmtemod`, `Fdesign`, `FdesignD`, `FdesignE`, `Fourier`, `HankelQ`,
  `Hooks`.
* Specification files, independent of the model's helpers: `KernelSpec`
  (interface conditions, transmission-line equations), `Bessel`, `ODE`,
  `Gauss`, and the first part of most proof files.
* Proof files: all others.
* Property files `Props*.v`: the theorem statements `Cxx_…`, each proved by
  `exact lemma`, an `Example` with a non-trivial instance of its hypotheses,
  and `Print Assumptions`.

Naming: a theorem ending in `_partial` proves less than the property says;
one ending in `_refuted` proves that (a clause of) the property is false, with
a witness. Everything refuted is explained in section 4.

## 2. Per property: what is modelled and how it is proved

| id | title | modelled | proof idea | status |
|----|----|----|----|----|
| C01 | Global reflection coefficients satisfy the interface conditions | `reflections` with array writes, index shift, early stop | loop invariant: slot k holds the recursive coefficient of its layer; the recursion satisfies the interface equations | proved |
| C02 | Horizontal E and vertical current are continuous across interfaces | `reflections`, `fields`, `greenfct` pointwise | closed form of the amplitudes per layer; continuity step between adjacent layers | proved |
| C03 | Wavenumber-domain field solves the layered Green's function problem | same | derivative of `exp` along z, jump of the direct term, existence and uniqueness of the two-point problem | proved |
| C04 | Splitting a layer by an artificial interface does not change the response | same | closed form: the artificial interface has r=0 and its phase factors multiply | proved |
| C05 | A stack of identical layers is a full space | same | r=0 for equal media; telescoping exponentials | proved |
| C06 | Vertical translation invariance | same + `get_layer_nr`, `dipole`, `dipole_k`, `bipole` | only differences of depths enter; carried through all checks of the routines | proved |
| C07 | Source-receiver reciprocity | same | Wronskian invariant through the layers | proved |
| C08 | Mirror symmetry in depth | same | closed form: index reversal exchanges the plus and minus recursions | proved |
| C09 | No division by zero and bounded reflections for passive models | `reflections`, `fields` over passive media | power flow only decreases away from the source, so denominators do not vanish; \|R\|<1 for real media | proved |
| C10 | Electric-magnetic duality of the component switch | `check_ab`, switches in `greenfct`, `wavenumber`, `angle_factor` | case analysis on the 36 codes | proved |
| C11 | The direct-field switch only moves the direct field | `greenfct`, `fem` | case analysis, ring | proved |
| C12 | Vanishing vertical magnetic/electric coupling | `check_ab`, `fem`, `tem`, `dipole_k` | case analysis, linearity | proved |
| C13 | Decomposition into Bessel orders | `wavenumber`, `angle_factor`, J0, J1 as integrals | recurrence of J2 by integration by parts; algebra per component group | proved |
| C14 | Digital linear filter evaluates the filter sum, independent of batching | `dlf` with pts_per_dec=0, `hankel_dlf` | list induction | proved |
| C15 | Lagged convolution equals the standard filter at its grid | `get_dlf_points`, rearrangement in `dlf` | div/mod arithmetic on flat indices; ceil/log inequality | proved |
| C16 | Angle-factor shortcuts do not change results | `dlf` paths | linearity of the interpolator | proved |
| C17 | The loop setting does not change results | `fem` loops | list induction | proved |
| C18 | QWE returns the converged value | `qwe` state machine | invariant over passes; counterexample | partial |
| C19 | Convergence flag is truthful | `qwe`, `quad` flags | invariant; counterexample for `quad` | partial |
| C20 | Frequency-to-time transform is linear and column-wise | `tem`, `fourier_dlf`, `fourier_fft`, `fourier_fftlog` | list induction, linearity | proved |
| C21 | Waveform convolution weights | `check_waveform`, weights of the convolution | telescoping sum; Gauss rule assumed only where stated | proved |
| C22 | FFT length | power-of-two search in `check_time` | arithmetic; counterexample | partial |
| C23 | Every depth belongs to exactly one layer | `get_layer_nr` | list induction over interfaces | proved |
| C24 | Model normalisation | `check_model` | list reasoning; counterexamples | partial |
| C25 | Minimum values: clipping and history | `_check_min`, `set_minimum`, `get_minimum` | fold over histories | proved |
| C26 | Component code validation | `check_ab` | decision table | proved |
| C27 | Arbitrary orientation equals tensor contraction | `get_abs`, `get_geo_fact`, `bipole` | trigonometry at multiples of pi/2; error of skipped components | proved |
| C28 | Finite-length bipole discretisation | `get_azm_dip` | acos/atan2 identities | proved |
| C29 | Result placement for many sources and receivers | `bipole` loops and slices, `fem`, `tem` | index arithmetic; separability of the transform | proved |
| C30 | dipole and bipole agree on coordinate axes | `get_abs`, `get_geo_fact`, `bipole`, `dipole` | case analysis | proved |
| C31 | Source strength scaling | strength branch in `get_azm_dip`, `bipole` | algebra; counterexample | partial |
| C32 | Hankel transform names | `check_hankel` | exact set of accepted names; counterexample | partial |
| C33 | Fourier transform names and signals | `check_time`, `check_time_only`, `check_waveform` | exact set of accepted names and signals; counterexamples | partial |
| C34 | Keyword handling | `get_kwargs` | finite-map reasoning | proved |
| C35 | Frequency and Laplace parameters | `check_frequency` | arithmetic | proved |
| C36 | Phase conventions | `EMArray.pha` with unwrap | induction; counterexample | partial |
| C37 | Offsets and angles | `get_off_ang` | index arithmetic, atan2 | proved |
| C38 | Half-space solution parts add up | `halfspace` combination stage, `analytical` | algebra; counterexample | partial |
| C39 | Full-space solution symmetries | `fullspace` | algebra; counterexamples | partial |
| C40 | dipole_k is consistent with dipole | `dipole_k`, `dipole` | decision table over codes; counterexample | partial |
| C41 | GPR gain is optional | `gpr` | algebra; counterexample | partial |
| C42 | In-phase and quadrature normalisation | `ip_and_q` | algebra; counterexamples | partial |
| C43 | Filter cache | filter cache state machine | invariant over access sequences | partial |
| C44 | Filter file round trip | `tofile`/`fromfile` over a file map | map reasoning; counterexamples | partial |
| C45 | Filter-design file round trip | `save_filter`/`load_filter` | map reasoning; counterexample | partial |
| C46 | Grid specification of filter design | `_ls2ar` | ceil arithmetic; counterexample | partial |
| C47 | Data file round trip | `save_data`/`load_data`, text and JSON | printer/reader round trip, reshape | partial |
| C48 | Input file round trip | `save_input`/`load_input` | printer/reader round trip | partial |
| C49 | Command-line interface dispatch | `main`/`run` | case analysis | partial |
| C50 | TM/TE split sums to the full field | `tmtemod` | TE/TM identity at the pole | proved |
| C51 | TM/TE split is translation invariant | `tmtemod` | only differences enter; counterexample | partial |
| C52 | Gaver-Stehfest coefficients | Stehfest coefficients | combinatorial identities for every even order | proved |
| C53 | Analytical transform pairs for filter design | `sin_*`, `cos_*` | improper integrals by antiderivative and dominated limits | partial |
| C54 | Survey expansion | `check_bipole`, `check_dipole` sizes | list reasoning | proved |
| C55 | Full-space responses solve Maxwell's equations | `fullspace` | derivatives of the closed forms | proved |
| C56 | Isotropic full space equals the textbook dyadics | `fullspace` | algebra | proved |
| C57 | Diffusive full-space solution is the full one without displacement currents | `analytical`, `fullspace` | carried through the checks | proved |
| C58 | Half-space time and Laplace domain fit together | `halfspace` TE/TM parts | derivative; Laplace transform by antiderivatives with erfc (defined here) | proved |
| C59 | Analytical full space equals dipole | `analytical`, `dipole` | carried through the checks | proved |
| C60 | Parameters and inputs of the diffusive solutions | `analytical` | non-interference; counterexamples | partial |
| C61 | Computed points cover the points that are interpolated | `check_time`, `get_dlf_points` | inequalities on grids; counterexample | partial |
| C62 | Hankel transform pairs for filter design | `j0_*`, `j1_*` | Sommerfeld integral from the integral representation of J0 | proved |
| C63 | Flux and current densities are the fields times the parameter of the layer of the pole | `bipole` with pole types 'b' and 'j' | factor pulled through all loops | proved |
| C64 | Half-space solution: images, exchange, rotation and static limit | `halfspace` | algebra; limit at zero frequency | proved |
| C65 | Wavenumber-domain response of a homogeneous medium transforms to the full-space solution | `wavenumber` on uniform stacks, `fullspace` | Sommerfeld integrals for each component | proved |
| C66 | Direct-field switch does not change the space-domain result | `greenfct` with and without direct field, `fullspace` | C65 + linearity of the improper integral | proved |
| C67 | FFT transform to the time domain is the inverse Fourier sum | `fourier_fft` with padding, `fftshift`, interpolation (`Fourier.v`) | sums of roots of unity, finite sums; error bound by the triangle inequality; witness with two frequencies | partial |
| C68 | FFTLog multiplies every harmonic by its factor | `fourier_fftlog` with the packed format of `rfft`/`irfft`, `get_fftlog_input` (`Fourier.v`, `UtilsArgs.v`) | packed arrays as Hermitian sequences, orthogonality, Parseval; phases chosen through kr for the refutations | partial |
| C69 | Fourier transform by quadrature with extrapolation integrates over half periods | `fourier_qwe`, `qwe` (`Fourier.v`, `Transform.v`) | loop invariant of `qwe` per element (C18), block sums, two-node witness | partial |
| C70 | Hankel transforms by quadrature integrate the layered kernels | `hankel_qwe`, `hankel_quad`, `qwe`, `quad` (`HankelQ.v`, `Transform.v`) | block sums as Gauss rules, loop invariant of `qwe` per element (C18), linearity of the integral; witness with four interpolation points | partial |
| C71 | A designed filter is the least-squares solution for its transform pairs | `_calculate_filter` (`FdesignD.v`), numpy.linalg as arguments with their contracts | normal equations from the QR factorisation, Pythagoras for the residuals | proved |
| C72 | The filter design returns the best filter of the grid and leaves the pairs alone | `_get_min_val`, `design`, `scipy.optimize.brute` without finish (`FdesignD.v`); pairs as objects in a heap | order on the extended reals; sorted list of bad points; invariants of the loop that writes into the heap; witnesses with 3 and 12 points | partial |
| C73 | The transform pairs computed with the modeller are consistent | `empy_hankel` (`FdesignE.v`) on top of the models of dipole and dipole_k | closed forms of both routines at 45 and 0 degrees; linearity of the kernel in the direct field (C11) and the Sommerfeld integrals of C65 | proved |
| C74 | The half-space solution is continuous at zero offset | `halfspace` at offset zero and for small offsets | the singular terms of the TE and TM parts cancel to first order in the squared offset because f1' = -f2/sqrt(t); the remaining coefficients, the Bessel products and the Gaver-Stehfest sum are continuous | partial |
| C75 | The half-space solution solves the diffusive Maxwell equations | `halfspace`, its five parts and their sums, as functions of the receiver position | fields of the form x_a x_b S(R,z) + d_ab Q(R,z): curl curl reduces to two scalar equations for S and Q; exponentials, error functions and Gaussians form a chain f_n' = -k f_(n+1); for the airwave the derivatives of the Bessel products are combinations of the four products with rational coefficients | proved |
| C76 | The wavenumber integral of a layered model converges | `wavenumber`, `greenfct`, `reflections`, `fields` on a layered model, as functions of the wavenumber | continuous functions bounded by a polynomial times exp(-c lam) form an algebra; reflection coefficients tend to limits, products of layer exponentials telescope to exp(-a |zs - zr| lam); Cauchy criterion | proved |
| C77 | Layered responses solve Maxwell's equations and the interface conditions | all 34 codes of `wavenumber` with the angle factors, offset and azimuth from the coordinates, integrated exactly over the wavenumber | each code is a superposition of the TM and TE mode functions with plane-wave factors averaged over the circle (`code_val`); each plane wave solves Maxwell, differentiation under both integrals by uniform exponential bounds; continuity from Lipschitz bounds of the integral on both sides and the mode conditions of C02/C03 at the interface | proved |
| C78 | Symmetries of layered responses in space | as C77, exact wavenumber integral of every code | every code is tM wM wM T W(kap kap) + tE sE wE wE T W(the the) (`val_syv`): receiver weight, source weight, potential and angular pattern of the two modes; reciprocity and mirror image of the potentials (C07, C08), shift of the angular variable for rotation and parity; C04 and C06 for the last two | proved |
| C79 | Responses with separate direct field solve Maxwell's equations at the source depth too | as C77; reflected part of the exact wavenumber integral, and the closed form of C55 | in the source layer the reflected part of every mode is an up- and a down-going wave with coefficients that decay exponentially in the wavenumber, so the differentiation under the integral of C77 applies at the source depth too; C55 for the direct field, C66 for the agreement | proved |
| C80 | Scaling law of layered responses | as C78; exact integral over the wavenumber of the modelled kernel | homogeneity of the closed form of the kernel in every quantity, and the substitution lambda -> lambda / L in the improper integral | proved |
| C81 | Responses at negative frequencies are complex conjugates, Laplace responses are real | as C78 | the closed form of the kernel commutes with conjugation because the vertical wavenumbers have positive real part (C09); the plane-wave integrals do up to a parity sign that cancels | proved |
| C82 | A layer of zero thickness has no effect | the kernel as in C01-C04 with an inserted layer; the layer search of get_layer_nr | the composition law of reflection coefficients, r1 + r2 = r (1 + r1 r2), across the thin layer and telescoping transmission factors; the layer search never selects the thin layer; space level as C78 | proved |
| C83 | A source never takes power from a passive model | the kernel as in C01-C04 with source and receiver at the same depth | the field is the inverse of the sum of the admittances (impedances) seen below and above, whose real parts are positive by the power-flow induction of C09 | proved |
| C84 | Distant layers lose their influence | the kernel as in C01-C04 and the wavenumber integral as in C76, with a family of models | limits of the reflection recursion; in space a calculus of families that converge exponentially in the distance and decay exponentially in the wavenumber (sums, products, inverses), with a positive lower bound of the real part of the vertical wavenumber | proved |
| C85 | User-supplied functions act where documented | func_eta, func_zeta and bandpass as arbitrary functions of the checked model and the values so far (Hooks.v); the routines dipole, bipole and loop around them | the routines depend on the model only through depths, rows of eta and zeta, and the full-space flag (by unfolding, all loops of bipole); column-wise algebra for bandpass | proved |
| C86 | Responses depend continuously on the model and the survey | reflections, fields, greenfct, wavenumber, dlf, check_frequency and tem with families of parameters | limits along an arbitrary filter; the principal root is continuous where its real part is positive; induction over the reflection coefficients with non-zero denominators of the limit; finite sum of the filter; a linear map on lists of fixed length is continuous (sum over the unit vectors) | proved |
| C87 | The exact response depends continuously on the model and the survey | reflections, fields, greenfct, wavenumber and check_frequency with families of parameters; the Hankel integral with the exact Bessel functions | dominated convergence: an exponential bound in the wavenumber that is uniform along the family (limits along the product of the filter with the wavenumber tending to infinity), uniform convergence on bounded wavenumbers by a supremum argument | proved |
| C88 | Error of quadrature with extrapolation | qwe and hankel_qwe, with the epsilon table of C18 | the test passed and the contraction bound the distance to the limit; the first two rows of the epsilon table in closed form for a geometric series; additivity of the integral and convergence of the layered integral (C76) | proved |
| C89 | Source and receiver at equal depths | fullspace as fem calls it, and the reflected field of C87 | limits through the formulas of fullspace branch by branch, all roots stay off the branch cut; two magnetic dipoles by duality; the reflected field decays with the length of the path over the nearest interface; C66 joins the two parts away from equal depths | proved |
| C90 | Weak contrasts | the exact response of C87 and fullspace of C39 | continuity of the exact response in all parameters (C87); the integrand does not change if a layer is split (C04); a medium of equal layers has the full-space solution as its exact response (C66) and no reflected field (C05, C11) | proved |

Remarks (what is missing, hypotheses worth knowing):

* C01: All layers, all source/receiver layers, complex eta/zeta. Includes the shifted storage in the two corner cases described in DESIGN.md (findings).
* C03: P,Q are any solution of the two-point problem; existence in C03_solvable, uniqueness in bvp_unique_all.
* C06: Kernel level, and the routines dipole, dipole_k and bipole with digital linear filters. Finite bipoles are not covered at the level of the routine: their coordinates are rounded when azimuth and dip are formed.
* C09: Totality for every passive medium (complex); bound |R|<1 for real positive media.
* C12: Frequency domain for any transform; time domain for linear transforms; wavenumber domain for every call of dipole_k.
* C13: J0 and J1 by their integral representations; angle_factor differs from the exact factor by at most 1e-9 because of its zero correction.
* C15: Filter base assumed geometric with ratio f_factor, as in the shipped filters. Interpolation is any linear interpolator.
* C17: Any separable transform; the standard DLF over passive layered media is shown to be one. Flags for every transform.
* C18: False as stated: an element that converges in the third interval returns zero (C18_early_refuted). Proved for later intervals: the returned value is the previous extrapolant, within tolerance.
* C19: QWE proved. QUAD: only the real part is looked at (C19_quad_partial, C19_quad_refuted).
* C20: The relation between switch-off and DC is part of kernel.halfspace (C38). Linearity of the three DLF variants, FFT and FFTLog proved; QWE is not linear (its stopping test depends on the values).
* C22: Proved up to 2^29 requested frequencies; above that the statement is false, the automatic length is 1 (C22_large_refuted).
* C23: Weakly increasing interfaces included; C23_checked: every model accepted by check_model.
* C24: All parts proved for distinct interfaces. Two clauses are false for repeated interfaces, shown by the _refuted theorems: [1, inf, inf] keeps an infinite depth, and repeated depths are accepted top-down but rejected bottom-up.
* C27: Error bound max(1e-8, min_angle) times the sum of the moduli of the tensor components; exact without thresholds. C27_bipole: the same bound for the routine bipole against nine calls of dipole.
* C28: Gauss-Legendre nodes and weights are arguments; the weights are assumed to sum to 2 in C28_weights, nodes to lie in [-1,1] in C28_between.
* C29: For any Hankel transform that treats offsets separately, the digital filter included; also in the time domain with any Fourier transform and waveform. Azimuths and dips within 1e-8 rad of a multiple of 90 degrees must be exact multiples: otherwise the component list of the single call may differ.
* C30: C30_bipole is the statement about the two routines.
* C31: Exact for every positive strength and any Hankel transform. Negative strengths are treated as zero, shown by C31_negative_refuted.
* C32: False as stated: every substring of 'quad', such as the empty name, is accepted too (C32_undocumented_refuted). Proved: the exact set of accepted names, rejection of all others, and the settings.
* C33: False as stated: 'sin' and 'cos', documented in the modelling routines, are rejected (C33_sincos_refuted), and a waveform may carry any signal (C33_waveform_signal_refuted). Proved: the exact sets of accepted names and signals and the choice of sine or cosine.
* C36: Proved for complex data. For real (time-domain) arrays lead is not minus lag (C36_real_refuted).
* C38: Parts proved. The DC value of the switch-off response is the switch-on value at 1e4 s, not the limit (C38_dc_refuted).
* C39: Exchange, rotation and duality proved. Duality of two magnetic dipoles needs positive permittivity: false for zero permittivity in VTI media (C39_magnetic_refuted), and not a number in the Laplace domain (C39_laplace_refuted).
* C40: Proved for 24 of the 36 codes (all with a digital-filter Hankel transform). For the other twelve, 41, 42, 44, 45, 46, 51, 52, 53, 54, 55, 62, 64, the code uses the angle factor (or the division by the offset) of the wrong component; each is refuted with a witness.
* C41: The gain factor is proved for every given gain; the documented default (no gain) raises TypeError for every input.
* C42: Proved for numeric codes with array resistivities and non-zero primary field. Refuted for codes given as strings (primary field of the cross component) and for layered resistivities given as a dictionary (always an error).
* C43: Results do not depend on earlier accesses and the two kinds are never mixed up: proved for every sequence. The library function is called in the first access only, but once per array (C43_calls_refuted), so whether a file is read once depends on caching inside libdlf, which is not part of the repository.
* C44: Proved for any number format that reads back what it writes, provided no stale coefficient files exist and the base has at least two points. Stale files are picked up (C44_stale_refuted) and a base with one point cannot be loaded (C44_short_refuted).
* C45: Proved for every number of spacing values and two or more shift values; with one shift value loading raises IndexError (C45_one_shift_refuted).
* C46: Proved in exact arithmetic for distinct ends; equal ends give a single point (C46_equal_ends_refuted).
* C47: Text and JSON, real and complex, for any number format that reads back what it writes. Exceptions: empty dimensions, and complex values with infinite imaginary part in JSON; negative zeros may lose their sign in complex JSON data.
* C48: Proved for every non-empty dictionary of JSON values with distinct keys; the empty dictionary is written as invalid JSON (C48_empty_refuted).
* C49: Proved for all argument lists of the console script and all outcomes of the routine. Calling main(args) explicitly depends on the length of sys.argv instead (C49_explicit_refuted).
* C50: Against the model of dipole with the same filter, plain resistivities and xdirect=False.
* C51: False as stated (C51_refuted): the correction of the part '+-' depends on the absolute depths. Proved: the other four parts of each mode and the total are invariant, and all parts when the source is in the first layer.
* C53: All six pairs proved for inverse=False. With inverse=True the claim is false for every pair and argument (C53_inverse_refuted): the sides are exchanged without the factor 2/pi; C53_inverse proves the exact factor.
* C54: Electric/magnetic type handling of check_bipole is not part of the model.
* C55: Electric sources: all passive media, frequency and Laplace domain. Magnetic sources: positive permittivity and permeability in the frequency domain (see C39 for what happens otherwise).
* C56: Magnetic sources: positive permittivity and permeability in the frequency domain.
* C57: At the level of analytical; hypothesis: positive minimum values.
* C58: Direct and reflected TE and TM parts; the airwave (Bessel functions, Gaver-Stehfest) is not covered.
* C60: Permeabilities: proved. Permittivities do enter (C60_eperm_refuted) and lists of frequencies are rejected (C60_list_refuted).
* C61: Proved for the splined filter, FFT and FFTLog. False for QWE, whose lowest frequencies are extrapolated (C61_qwe_refuted).
* C62: Sommerfeld integral and its relatives proved from the integral representation of J0 and J1; mu_0 is a positive argument.
* C63: A finite bipole that crosses an interface has no single factor and is not covered; every integration point is then weighted with its own layer.
* C64: scipy's ive and kve are parameters; only the static limit assumes something of them (their values near zero).
* C65: Two magnetic dipoles: frequency domain and positive permittivity (the closed form has the wrong sign otherwise, C39_magnetic_refuted).
* C67: False as stated (C67_shift_refuted): the positive frequencies enter two steps too low and the first is missing. Proved: the exact sum computed (C67_value, C67_nodes) and a bound for the difference, proportional to the frequency step times the time (C67_error).
* C68: Proved for unbiased transforms with an even number of points, and for all harmonics below the highest in general. Odd numbers of points leave the highest harmonic unrotated (C68_odd, C68_odd_refuted); biased transforms use the factor of another harmonic (C68_bias, C68_bias_refuted) and raise IndexError for two points.
* C69: Independence of the times proved (C69_each). The half-period clause is false (C69_half_periods_refuted): single nodes are extrapolated, for which exact values and sums are proved (C69_nodes, C69_sine, C69_cosine).
* C70: Independence of the offsets holds without interpolation and for the adaptive transform; with interpolation it is false (C70_alone_refuted), and proved up to the smallest and largest offset (C70_extremes). Convergence of the extrapolation to the improper integral is not proved for layered kernels; C88 bounds the error given a rate of convergence.
* C71: Exact arithmetic; the contracts of numpy.linalg.qr and solve are hypotheses, met by a library for one column in the example.
* C72: Refuted in part: more failing points can give a better rating, points before the rated one can be off, a filter useless for one of several pairs can get a finite rating, and with fC given the pairs are overwritten (a second call, or fC=fI, fails). The rest is proved as stated, for a rating by distance also the rating of several pairs.
* C73: One frequency; the distances of the right-hand side one by one (with pts_per_dec=0 the same as together, C70). The pair is consistent for j2 only if the minimum offset is not above 1 m, at which the left-hand side is evaluated; this is a hypothesis.
* C74: True for seven of the nine components and the airwave. False for xx and yy (C74_jump_refuted): the value at zero offset lacks the inductive term of the source and of its image, exact difference in C74_limit. The impulse response of the horizontal components is nan (C74_impulse_refuted). The scaled Bessel functions are assumed continuous along rays.
* C75: The scaled Bessel functions are assumed to satisfy the derivative formulas of modified Bessel functions along rays (bessel_mod; met by power series, BesselMod.v). The airwave of the step response (a Gaver-Stehfest sum) is not covered. Finding: the switch-off response is the step response at 10^4 s minus the step response, so its curl curl is off by mu0 sigma times the impulse response at 10^4 s (C75_switch_off).
* C76: The limit is over the exact integral; how well QWE, QUAD or DLF approximate it is C20, C29, C69 and C70.
* C77: Exact integrals; the zero offset and the source depth itself are excluded. Uniqueness of the solution in space is not stated here.
* C78: Direct field in the wavenumber domain (xdirect=False); with xdirect=True the same holds where C66 identifies the two.
* C79: Source strictly inside a layer; exact integrals over all wavenumbers, as in C76-C78.
* C80: Exact integrals over all wavenumbers, as in C76-C79; xdirect=False.
* C81: Exact integrals over all wavenumbers, as in C76-C79; xdirect=False. The transforms themselves are in C67-C69.
* C82: The inserted layer must be passive like the others (positive real admittivity, non-negative real impedivity). That check_model accepts repeated depths for a top-down model is in C24_duplicates_refuted. In space: exact integrals over all wavenumbers, as in C76-C81.
* C83: Wavenumber domain, horizontal dipoles; the field of a vertical dipole at its own depth contains a delta function that the kernel leaves out.
* C84: In space for source and receiver at different depths; moving the layers above: inside layers, off the axis through the source.
* C85: dipole_k accepts a dictionary and takes no notice of its functions (C85_dipole_k). Functions that raise or change other local variables are not modelled.
* C86: The frequency zero is excluded: it counts as a Laplace parameter, so zeta jumps there from imaginary to real values (C86_zero). The angle factor is an input of the theorem: the code sets it to zero near its zeros, which makes a jump of at most about 1e-9. Continuity of the exact improper integral is C87.
* C87: Stated for the exact integral, not for what the numerical transforms return (C86 has the digital linear filter). The angle factor is the exact cosine or sine. For the full field source and receiver at the same depth are excluded: the integral converges there only conditionally, if at all; the reflected part has no such exception.
* C88: The rate q is a hypothesis: that the epsilon algorithm accelerates the series of an arbitrary layered medium is not proved. Elements that meet their tolerance in the third interval are excluded, they return zero (C18_early_refuted), as are extrapolated sums that are exactly zero or have the largest double as real part.
* C89: Two magnetic dipoles need an eta with positive imaginary part and the frequency domain, as in C66; without these fullspace does not return the solution (C39_dual_conductive, C39_laplace_refuted). Exact reflected field, not the numerical transforms.
* C90: Exact integrals, not the numerical transforms; no rate of convergence is given. Two magnetic dipoles and the full-space solution need the conditions of C66, as in C89.

## 3. Trusted base

* The Coq 8.16.1 kernel (`coqchk` is run on the whole development as well).
* Axioms of the standard library as listed per theorem in section 5:
  functional extensionality, the two decidability axioms behind the real
  numbers (`sig_forall_dec`, `sig_not_dec`) and `Classical_Prop.classic`.
  Coquelicot is used as a library; it adds no axiom. No axiom, parameter or
  section-less hypothesis is declared in this development.
* The correspondence between the Python text and the Gallina definitions.
  Every definition cites file and lines, and states its simplifications.

### What is modelled

| file | modelled | not modelled |
|------|----------|--------------|
| `kernel.py` | `wavenumber`, `greenfct`, `reflections`, `fields`, `angle_factor` (`Kernel.v`), `fullspace` (`Fullspace.v`), `halfspace` (`Halfspace.v`, `Stehfest.v`): all of the file | numba compilation |
| `transform.py` | `dlf`, `hankel_dlf`, `fourier_dlf`, `qwe`, `quad`, `get_dlf_points` (`Transform.v`), `get_fftlog_input` (`UtilsArgs.v`), `fourier_fft`, `fourier_fftlog`, `fourier_qwe` (`Fourier.v`; FFTs as their defining sums, splines, Legendre nodes, log-gamma and `scipy.integrate.quad` as arguments), `hankel_qwe`, `hankel_quad` (`HankelQ.v`): all of the file | which kernel evaluations `hankel_qwe` skips after convergence |
| `utils.py` | `EMArray`, `check_ab`, `check_bipole`, `check_dipole`, `check_frequency`, `check_hankel`, `check_model`, `check_loop`, `check_time`, `check_time_only`, `check_waveform`, `check_solution`, `get_abs`, `get_geo_fact`, `get_layer_nr`, `get_off_ang`, `get_azm_dip`, `get_kwargs`, `conv_warning`, `set_minimum`, `get_minimum`, `_check_shape`, `_check_var`, `_check_min` | printing (`printstartfinish`, `_strvar`, `_prnt_min_max_val`, verbosity), `Report` |
| `model.py` | `bipole`, `dipole`, `loop`, `analytical`, `gpr`, `dipole_k`, `ip_and_q`, `fem`, `tem` | the body of user functions (`func_eta`, `func_zeta`, `bandpass`): they are arbitrary functions of the checked model and the values so far |
| `filters.py` | `DigitalFilter.tofile`/`fromfile`, the cache of `_BaseFilter` | the filter values themselves, deprecated wrappers |
| `io.py` | `save_data`, `load_data`, `save_input`, `load_input` with a JSON printer and reader and a text table reader | number formatting and parsing (arguments with a round-trip hypothesis) |
| `__main__.py` | `main` and the dispatch to the routines | argparse itself beyond the accepted options, `--report` output |
| `scripts/tmtemod.py` | the split kernel and `dipole` | |
| `scripts/fdesign.py` | `save_filter`, `load_filter`, the analytical pairs, `_ls2ar`, `_calculate_filter`, `_get_min_val`, `design` without `finish` (`FdesignD.v`), `empy_hankel` (`FdesignE.v`) | plotting, printing; nan in the pairs |

Parallel evaluation, numba, warnings and printed output are not modelled.

## 4. Findings

Each item says what the code does, where, and the theorem that shows it (if
one does).

Numerical transforms

* `transform.qwe` 1107-1128: an element that converges in the third interval
  returns 0 instead of the value (`C18_early_refuted`). One that converges
  later returns the previous extrapolant, not the last one
  (`C18_returned_partial`). The flag is `False` if convergence happens in the
  very last interval, and `maxint=1` leaves `i` unbound.
* `transform.quad`: `(len(re) or len(im)) > 3` ignores non-convergence of the
  imaginary part (`C19_quad_refuted`).
* `transform.dlf`: with `ang_fact=None` and interpolation, `one_angle` is
  unbound.
* `check_time`, `ft='qwe'`: the frequency range is computed in angular values
  but used as frequencies, a factor 2 pi off, so the computed points do not
  cover what is interpolated (`C61_qwe_refuted`).
* `check_time`, `ft='fft'`: more than 2^29 frequencies give a length of 1
  (`C22_large_refuted`).
* `check_time` rejects the documented names `'sin'`/`'cos'`
  (`C33_sincos_refuted`). `check_hankel` 660 accepts any substring of `'quad'`
  (`C32_undocumented_refuted`).
* `fourier_fft` 832: the spectrum `np.r_[fEM[1:], 0, fEM[::-1].conj()]` puts the
  positive frequencies two bins too low and drops the first one
  (`C67_shift_refuted`); the error is at most of the order of the frequency
  step times the time (`C67_error`).
* `fourier_fftlog` 753-786: for an odd number of points the highest harmonic is
  returned without its factor (`C68_odd_refuted`). With a bias and an even
  number of points the last element is multiplied by the factor of harmonic
  n/2-3 instead of n/2 (`C68_bias_refuted`); two points raise IndexError.
* `fourier_qwe` 642-645: the products at the nodes are not summed over the nodes
  of an interval (as `hankel_qwe` does), so `qwe` extrapolates single nodes, of
  which only the first `maxint` are used (`C69_half_periods_refuted`). In the
  cosine transform most nodes of the first interval have twice their weight
  (`C69_cosine`).
* `hankel_qwe` 238-330 with `pts_per_dec`: the interpolation grid spans the
  nodes of all offsets of the call, so the result of an offset changes with the
  smallest and largest offset in it (`C70_alone_refuted`, `C70_extremes`). The
  decay test 309-330 and the default limits of the adaptive quadrature use the
  interval ends, which lie outside the grid: the spline is extrapolated there
  (`C70_outside`).
* `fourier_fftlog`: in-place mutation of its input; one point per decade with
  the default `add_dec` may not cover all times.

Analytical solutions

* `kernel.fullspace`: the sign of one term is decided by `np.any` over all
  frequencies. Two magnetic dipoles in a VTI medium without permittivity get
  the wrong sign (`C39_magnetic_refuted`, exact value in
  `C39_dual_conductive`); two horizontal magnetic dipoles in the Laplace
  domain give `nan` (`C39_laplace_refuted`).
* `kernel.halfspace`: the resistivity is taken as Re(1/etaH), which depends on
  the permittivity (`C60_eperm_refuted`); in the time domain eta is evaluated
  with times in place of frequencies. The impulse airwave is `nan` at zero
  offset (`C74_impulse_refuted`). The DC value of the switch-off response is
  the switch-on value at 1e4 s (`C38_dc_refuted`), so that the switch-off field
  misses Maxwell's equations by the impulse response at 1e4 s (`C75_switch_off`).
* `kernel.halfspace` 1115-1116 (offset zero, only reached if the minimum offset
  is set to zero): `g2m` and `g2p` have the wrong sign. They cancel the TM
  terms instead of adding to them, so xx and yy lack the inductive term
  mu0 s exp(-gamma h)/(4 pi h) of the source and of its image
  (`C74_jump_refuted`, exact difference in `C74_limit`).
* `analytical`: `freqtime` given as a Python list with a diffusive solution
  and `signal=None` raises TypeError (`C60_list_refuted`).

Routines

* `dipole_k` 1442/1476 uses the raw component code instead of the switched
  one: wrong for 12 of 36 components (`C40_other_codes_refuted`). A
  two-dimensional wavenumber with several offsets does not broadcast.
* `gpr`: the default `gain=None` raises TypeError although documented as "no
  gain" (`C41_default_refuted`).
* `ip_and_q`: component codes given as strings are not mapped to co-planar
  (`C42_string_refuted`); a dictionary `res` is kept whole, which is an error
  for layered models (`C42_dictionary_refuted`); with bottom-up depths the
  "first layer" is the deepest.
* `bipole`: negative strengths are treated as zero (`C31_negative_refuted`).
  The set of computed components depends on all angles of the survey with
  tolerance 1e-8. Coordinates of finite bipoles are rounded, so translation
  is not exact for them.
* `kernel.reflections`: the stored coefficients are shifted in the odd corner
  cases, in slots that `greenfct` does not read (`C01_reflections` states
  which).

Input checks

* `check_model`: repeated interfaces are accepted from top to bottom but
  rejected from bottom to top; a repeated +inf is kept
  (`C24_duplicates_refuted`, `C24_infinity_refuted`). `_check_var` never
  checks a scalar's shape. Zero permeability is accepted and gives zeta = 0.
* `check_frequency`: frequency 0 is treated as a Laplace parameter.
* `check_waveform`: the signal of a waveform dictionary is not validated
  (`C33_waveform_signal_refuted`); repeated nodes give `nan`; non-integer
  signals between -2 and 2 are accepted (`C33_real_signal`).
* `check_ab(11.9)` is accepted as 11. `check_bipole`: `msrc='j'` or another
  string raises TypeError.
* `EMArray.pha`: lead and lag are both pi for real negative data
  (`C36_real_refuted`).
* `angle_factor` only corrects zeros at the first two test angles.

Files

* `save_input({})` writes invalid JSON (`C48_empty_refuted`). Complex JSON
  data: an infinite imaginary part makes the real part `nan`
  (`C47_inf_refuted`), negative zeros lose their sign. Empty dimensions do
  not survive (`C47_empty_refuted`).
* `DigitalFilter.fromfile` picks up stale coefficient files
  (`C44_stale_refuted`); a base with one point raises IndexError
  (`C44_short_refuted`); names with the same part before the first dot
  collide.
* `load_filter(full=True)` with one shift value raises IndexError
  (`C45_one_shift_refuted`).
* `_BaseFilter` calls the library function once per array, not once per
  filter (`C43_calls_refuted`). Cached filter objects are shared and mutable.
* `__main__`: `main(args)` looks at `sys.argv` (`C49_explicit_refuted`).

Scripts

* `tmtemod` 540/548: the exponential lacks the depth of the layer, so the part
  `+-` depends on the absolute depth (`C51_refuted`, `C51_moves`).
* `fdesign.design` 419-420 stores the array of right-hand sides in the pair
  objects: with `fC` given, the user's pairs are overwritten, and the same call
  fails the second time (`C72_repeat_refuted`); `fC=fI` always fails
  (`C72_same_refuted`), as does a list with one pair twice (`C72_twice`).
* `fdesign._get_min_val` 1289-1327: with five or more bad points up to four of
  them are skipped, with fewer none, so that more errors can give a better
  rating (`C72_more_errors_refuted`) and points before the rated one can be bad
  (`C72_within_refuted`); with `cvar='amp'` a pair for which the filter is zero is
  not noticed beside another pair (`C72_useless_refuted`).
* `fdesign._calculate_filter`: a factor `r_def[2]` below 1 always gives the zero
  filter (`C71_least_squares`).
* `fdesign`: sine and cosine pairs with `inverse=True` lack the factor 2/pi
  (`C53_inverse_refuted`); `sin_3` at b=0 is pi/2 while the integral is 0;
  equal ends in `_ls2ar` give a single point (`C46_equal_ends_refuted`).

## 5. Assumptions per theorem

Output of `Print Assumptions`, condensed. FE =
`FunctionalExtensionality.functional_extensionality_dep`, SF =
`ClassicalDedekindReals.sig_forall_dec`, SN =
`ClassicalDedekindReals.sig_not_dec`, CL = `Classical_Prop.classic`.
"none" = closed under the global context.

* **SF**: `C17_flags`, `C54_points`.

* **none**: `C25_history`, `C26_accept`, `C26_reject`, `C43_accesses`, `C43_calls_refuted`, `C43_first_access_only`, `C44_round_trip_partial`, `C44_short_refuted`, `C44_stale_refuted`, `C45_one_shift_refuted`, `C45_round_trip_partial`, `C47_empty_refuted`, `C47_inf_refuted`, `C47_json_complex`, `C47_json_real`, `C47_text`, `C48_empty_refuted`, `C48_round_trip`, `C49_calls`, `C49_errors`, `C49_explicit_refuted`, `C49_informs`, `C49_runs`, `C49_writes`.

* **FE, SF**: `C09_real_is_passive`, `C21_constant`, `C21_convolution`, `C23_interface`, `C23_one_layer`, `C25_clipping`, `C28_between`, `C28_midpoint`, `C28_rounding`, `C28_weights`, `C32_dlf_settings`, `C32_names`, `C32_quad_settings`, `C32_qwe_settings`, `C32_rejects`, `C32_undocumented_refuted`, `C33_real_signal`, `C33_signal`, `C33_waveform_signal_refuted`, `C34_get_kwargs`, `C46_equal_ends_refuted`, `C46_points`, `C52_constants`, `C52_sum_zero`, `C54_bipoles`, `C54_dipoles`, `C54_wrong_length`, `C72_first`.

* **FE, SF, SN**: `C01_reflections`, `C01_unique`, `C07_spectrum`, `C10_angle`, `C10_magnetic_electric`, `C10_others_unaffected`, `C12_frequency`, `C12_time`, `C17_loops`, `C18_early_refuted`, `C18_geometric`, `C18_returned_partial`, `C19_qwe`, `C20_columnwise`, `C20_fft`, `C20_linear`, `C20_off`, `C20_step`, `C21_exact`, `C23_checked`, `C24_accepted`, `C24_bottom_up`, `C24_duplicates_refuted`, `C24_fullspace`, `C24_infinity_refuted`, `C24_normalised`, `C24_strict`, `C24_values`, `C27_exact`, `C30_axis_aligned`, `C31_length`, `C35_parameters`, `C35_passive`, `C39_dual_conductive`, `C39_dual_magnetic`, `C39_dual_mixed`, `C39_exchange`, `C39_laplace_refuted`, `C39_rotation`, `C53_names`, `C62_names`, `C65_unique`, `C67_error`, `C67_nodes`, `C67_shift_refuted`, `C67_value`, `C68_harmonic`, `C69_cosine`, `C69_each`, `C69_nodes`, `C69_sine`, `C70_newton`, `C70_zeros`, `C72_count`, `C72_more_errors_refuted`, `C72_rating`, `C72_together`, `C72_together_r`, `C72_useless_refuted`, `C72_within_refuted`, `C86_limit`, `C86_zero`, `C87_rows`, `C88_error`, `C88_geometric`, `C89_fullspace`.

* **CL, FE, SF, SN**: `C02_continuity`, `C03_greens_function`, `C03_solvable`, `C04_artificial_interface`, `C05_uniform_stack`, `C06_bipole`, `C06_dipole`, `C06_dipole_k`, `C06_translation`, `C07_reciprocity`, `C08_mirror`, `C09_bounded`, `C09_total`, `C10_magnetic_magnetic`, `C11_direct_switch`, `C12_wavenumber`, `C13_angle_factor`, `C13_bessel`, `C14_batching`, `C14_filter_sum`, `C15_grid`, `C15_transform`, `C16_lagged`, `C16_splined`, `C16_standard`, `C17_dlf`, `C19_quad_partial`, `C19_quad_refuted`, `C20_dlf_lagged`, `C20_dlf_splined`, `C20_dlf_standard`, `C20_fftlog`, `C22_fft_length`, `C22_large_refuted`, `C27_bipole`, `C27_contraction`, `C28_depths`, `C28_direction`, `C28_points`, `C28_precision`, `C29_filter`, `C29_placement`, `C29_quad`, `C29_quad_total`, `C29_qwe`, `C29_qwe_total`, `C29_time`, `C29_total`, `C30_bipole`, `C31_negative_refuted`, `C31_nonpositive`, `C31_scaling`, `C33_accepts`, `C33_kind`, `C33_rejects`, `C33_sincos_refuted`, `C36_angle`, `C36_degrees`, `C36_lead`, `C36_length`, `C36_raw`, `C36_real_refuted`, `C36_step`, `C36_unwrap`, `C37_offsets`, `C38_dc_refuted`, `C38_lengths`, `C38_rejected`, `C38_routine`, `C38_sums`, `C38_switch_off`, `C39_magnetic_refuted`, `C40_agreement_partial`, `C40_other_codes_refuted`, `C41_default_refuted`, `C41_gain`, `C42_dictionary_refuted`, `C42_ratio`, `C42_string_refuted`, `C50_corrections`, `C50_sum`, `C51_moves`, `C51_refuted`, `C51_shift_partial`, `C51_sum`, `C52_impulse`, `C52_linear`, `C52_step`, `C53_inverse`, `C53_inverse_refuted`, `C53_pairs`, `C55_electric`, `C55_magnetic`, `C56_electric`, `C56_magnetic`, `C57_diffusive_is_full`, `C58_impulse_is_derivative`, `C58_laplace_of_impulse`, `C59_analytical_is_dipole`, `C60_eperm_refuted`, `C60_list_refuted`, `C60_mperm`, `C61_fft`, `C61_fftlog`, `C61_qwe_refuted`, `C61_spline`, `C62_diffusive`, `C62_real`, `C63_densities`, `C63_dipoles`, `C64_exchange`, `C64_mirror`, `C64_rotation`, `C64_rotation_vertical`, `C64_static`, `C64_surface`, `C65_homogeneous`, `C66_direct_field`, `C66_other_layer`, `C68_bias`, `C68_bias_refuted`, `C68_bias_two`, `C68_factors`, `C68_norm`, `C68_odd`, `C68_odd_refuted`, `C68_value`, `C69_half_periods_refuted`, `C70_adaptive`, `C70_alone_refuted`, `C70_decay`, `C70_extremes`, `C70_layered`, `C70_outside`, `C70_plain`, `C70_quad`, `C70_quad_integral`, `C70_spline`, `C71_base`, `C71_exact`, `C71_failure`, `C71_least_squares`, `C71_points`, `C72_default`, `C72_repeat_refuted`, `C72_same_refuted`, `C72_search`, `C72_twice`, `C73_filter`, `C73_fullspace`, `C73_list`, `C73_names`, `C73_quadrature`, `C73_same_layer`, `C74_impulse_refuted`, `C74_jump_refuted`, `C74_limit`, `C75_frequency`, `C75_impulse`, `C75_impulse_airwave`, `C75_impulse_sum`, `C75_step`, `C75_sum`, `C75_switch_off`, `C76_converges`, `C76_decay`, `C76_reflected`, `C76_truncation`, `C77_any`, `C77_continuous`, `C77_maxwell`, `C78_artificial_interface`, `C78_duality`, `C78_mirror`, `C78_reciprocity`, `C78_reflection`, `C78_rotation`, `C78_translation`, `C79_agree`, `C79_reflected`, `C79_total`, `C80_lengths`, `C80_scaling`, `C81_conjugate`, `C81_laplace_real`, `C81_negative_frequency`, `C82_kernel`, `C82_space`, `C83_modes`, `C83_power`, `C84_above`, `C84_kernel`, `C84_space`, `C85_bandpass`, `C85_bandpass_time`, `C85_bottom_up`, `C85_describes`, `C85_dipole_k`, `C85_loop`, `C85_plain`, `C86_interface`, `C86_kernel`, `C86_model`, `C86_survey`, `C86_time`, `C87_limit`, `C87_medium`, `C87_model`, `C87_reflected`, `C87_reflected_limit`, `C88_hankel`, `C88_sums`, `C89_limit`, `C89_model`, `C89_model_limit`, `C89_total`, `C90_contrast`, `C90_homogeneous`, `C90_model`, `C90_model_homogeneous`, `C90_model_interface`, `C90_model_total`.

