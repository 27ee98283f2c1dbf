{"id": "C01", "title": "Global reflection coefficients satisfy the interface conditions", "statement": "For a layered model, the reflection coefficients kernel.reflections returns for the layers between source and receiver are exactly those for which a wave travelling in that layer, plus its reflection, can be continued through every interface below (above) with continuous field and continuous flux, and with only an outgoing wave in the last (first) half-space.", "quantifier": "every number of layers, every layer thickness, every complex eta/zeta and wavenumber for which no denominator vanishes, every source and receiver layer, both directions", "why_tests_cant": "The recursion and its storage index depend on the number of layers and on the positions of source and receiver; a finite set of regression models cannot cover all of them.", "anchors": ["empymod/kernel.py:reflections"]}
{"id": "C02", "title": "Horizontal E and vertical current are continuous across interfaces", "statement": "In the wavenumber domain, the horizontal electric field computed for a receiver exactly on an interface is the same whether the receiver is attributed to the layer above or below; for a vertical electric receiver the same holds for field times vertical conductivity (eta_V).", "quantifier": "every layered model, every source position and electric or magnetic source orientation, every interface not inside the source layer, every wavenumber and frequency", "why_tests_cant": "Physical continuity is a relation between two evaluations over a continuum of models; tests compare a few stored numbers.", "anchors": ["empymod/kernel.py:greenfct", "empymod/kernel.py:fields", "empymod/kernel.py:reflections"]}
{"id": "C03", "title": "Wavenumber-domain field solves the layered Green's function problem", "statement": "As a function of receiver depth the computed TM and TE responses satisfy the wave equation u'' = Gamma^2 u inside each layer, decay outwards in both half-spaces, are continuous at all interfaces, and have exactly the unit jump demanded by the dipole source at the source depth.", "quantifier": "every layered VTI model, every source depth, every wavenumber with Re Gamma > 0", "why_tests_cant": "This characterises the solution as a function on a continuum of depths and models.", "anchors": ["empymod/kernel.py:greenfct", "empymod/kernel.py:fields"]}
{"id": "C04", "title": "Splitting a layer by an artificial interface does not change the response", "statement": "Inserting an additional interface inside a layer, with identical material on both sides, leaves the wavenumber-domain response unchanged, wherever source, receiver and new interface are.", "quantifier": "every layered model, every layer, every position of the new interface, all source/receiver depths", "why_tests_cant": "Relates runs with n and n+1 layers for every n; layer indices of source and receiver shift in between.", "anchors": ["empymod/kernel.py:reflections", "empymod/kernel.py:fields", "empymod/kernel.py:greenfct"]}
{"id": "C05", "title": "A stack of identical layers is a full space", "statement": "If all layers have the same parameters, all reflection coefficients are zero and the response is the direct field only, whatever the interfaces and whether or not source and receiver lie in the same layer.", "quantifier": "every number of interfaces, every depth, every source/receiver position", "why_tests_cant": "Tests use one or two homogeneous stacks; the claim is for every stack size and placement.", "anchors": ["empymod/kernel.py:reflections", "empymod/kernel.py:fields", "empymod/kernel.py:greenfct", "empymod/utils.py:check_model"]}
{"id": "C06", "title": "Vertical translation invariance", "statement": "Adding the same constant to all interfaces, source depths and receiver depths does not change layer attribution nor the wavenumber-domain response.", "quantifier": "every model, shift and configuration", "why_tests_cant": "Holds for a continuum of shifts.", "anchors": ["empymod/utils.py:get_layer_nr", "empymod/kernel.py:greenfct", "empymod/kernel.py:fields", "empymod/kernel.py:reflections"]}
{"id": "C07", "title": "Source-receiver reciprocity", "statement": "Interchanging an electric source and an electric receiver (positions and orientations) leaves the wavenumber-domain response unchanged up to the sign fixed by the orientation pair.", "quantifier": "every layered model, every pair of depths in any two layers, every electric-electric component pair", "why_tests_cant": "Upward and downward propagation are separate code paths whose agreement for all stacks is an algebraic identity, not a numerical sample.", "anchors": ["empymod/kernel.py:greenfct", "empymod/kernel.py:fields", "empymod/kernel.py:reflections", "empymod/utils.py:check_ab"]}
{"id": "C08", "title": "Mirror symmetry in depth", "statement": "Turning the model, source and receiver upside down reproduces the wavenumber-domain response up to the sign given by the number of vertical (and magnetic) components.", "quantifier": "every layered model and source/receiver depths", "why_tests_cant": "Exchanges the plus/minus code paths for every number of layers.", "anchors": ["empymod/kernel.py:fields", "empymod/kernel.py:greenfct", "empymod/kernel.py:reflections"]}
{"id": "C09", "title": "No division by zero and bounded reflections for passive models", "statement": "For real positive material parameters (Laplace-domain frequencies) every reflection coefficient has modulus below one and none of the divisions performed by the kernel has a zero denominator.", "quantifier": "every number of layers, every positive eta, zeta, wavenumber and thickness", "why_tests_cant": "Inductive bound over the layer recursion.", "anchors": ["empymod/kernel.py:reflections", "empymod/kernel.py:fields", "empymod/kernel.py:greenfct", "empymod/utils.py:check_frequency"]}
{"id": "C10", "title": "Electric-magnetic duality of the component switch", "statement": "Every magnetic-receiver request is answered by an electric-receiver computation: magnetic-magnetic with eta and -zeta exchanged, electric source/magnetic receiver with source and receiver exchanged, and with the sign -1; no other component is affected.", "quantifier": "all 36 source/receiver combinations and every model", "why_tests_cant": "The mapping is spread over check_ab, greenfct, wavenumber and angle_factor; agreement must hold for every component and model simultaneously.", "anchors": ["empymod/utils.py:check_ab", "empymod/kernel.py:greenfct", "empymod/kernel.py:wavenumber", "empymod/kernel.py:angle_factor"]}
{"id": "C11", "title": "The direct-field switch only moves the direct field", "statement": "With source and receiver in the same layer, the response with xdirect=False equals the response with xdirect=None plus the direct wave; with source and receiver in different layers the switch has no influence.", "quantifier": "every model, component, wavenumber", "why_tests_cant": "Relates two runs over all models.", "anchors": ["empymod/kernel.py:greenfct", "empymod/model.py:fem"]}
{"id": "C12", "title": "Vanishing vertical magnetic/electric coupling", "statement": "The response between a vertical electric and a vertical magnetic dipole is identically zero, in all domains.", "quantifier": "every model, survey, frequency or time", "why_tests_cant": "Must hold for every input.", "anchors": ["empymod/model.py:fem", "empymod/model.py:dipole_k", "empymod/utils.py:check_ab"]}
{"id": "C13", "title": "Decomposition into Bessel orders", "statement": "The pieces PJ0, PJ0b and PJ1 returned by kernel.wavenumber, combined as J0*PJ0 + A*J0*PJ0b + A*J1*PJ1/r, equal the tensor component of the layered Green's function written with Bessel functions of order 0, 1 and 2.", "quantifier": "all components, wavenumbers, offsets, angles and mode responses", "why_tests_cant": "Sign bookkeeping over 9 component groups for all arguments.", "anchors": ["empymod/kernel.py:wavenumber", "empymod/kernel.py:angle_factor", "empymod/transform.py:hankel_dlf"]}
{"id": "C14", "title": "Digital linear filter evaluates the filter sum, independent of batching", "statement": "For the standard DLF every offset's result is sum_j w_j f(b_j/r)/r of its own kernel values; it does not depend on which other offsets are computed in the same call.", "quantifier": "every filter, list of offsets, kernel and angle factors", "why_tests_cant": "Batching independence is a statement over all lists.", "anchors": ["empymod/transform.py:dlf", "empymod/transform.py:hankel_dlf", "empymod/transform.py:get_dlf_points"]}
{"id": "C15", "title": "Lagged convolution equals the standard filter at its grid", "statement": "The lagged-convolution DLF (pts_per_dec=-1) evaluates the kernel at points such that the rearranged values are exactly what the standard DLF needs at logarithmically spaced offsets, and these offsets cover the whole requested range with at least four points.", "quantifier": "every filter base, every set of positive offsets or times", "why_tests_cant": "The tile/reshape index trick must be right for every filter length and number of points.", "anchors": ["empymod/transform.py:get_dlf_points", "empymod/transform.py:dlf"]}
{"id": "C16", "title": "Angle-factor shortcuts do not change results", "statement": "The shortcuts in the DLF for a single angle or for unit angle factors (combining kernels before interpolation or skipping multiplications) give the same result as always multiplying the J1 part by its angle factor.", "quantifier": "every kernel, angle list and linear interpolator", "why_tests_cant": "Statement over all inputs and both code paths.", "anchors": ["empymod/transform.py:dlf"]}
{"id": "C17", "title": "The loop setting does not change results", "statement": "loop=None, 'freq' and 'off' give identical frequency-domain fields with the standard DLF; the kernel count is 1, number of frequencies and number of offsets, respectively, and the convergence flag is the conjunction of all calls.", "quantifier": "every list of frequencies and offsets, every pure Hankel transform that treats offsets and frequencies independently", "why_tests_cant": "Equality of three loop structures for all sizes.", "anchors": ["empymod/model.py:fem"]}
{"id": "C18", "title": "QWE returns the converged value", "statement": "Whenever quadrature-with-extrapolation declares an element converged, the returned value agrees with the extrapolated sum within the requested tolerance.", "quantifier": "every kernel, tolerance and number of intervals", "why_tests_cant": "Depends on the interval in which convergence happens; tests never hit convergence in the first tested interval.", "anchors": ["empymod/transform.py:qwe"]}
{"id": "C19", "title": "Convergence flag is truthful", "statement": "If the convergence flag returned by the QWE or QUAD transform is True, every element satisfied its tolerance test (QWE) or neither the real nor the imaginary quadrature reported a problem (QUAD).", "quantifier": "every kernel and setting", "why_tests_cant": "Failure patterns are not enumerable.", "anchors": ["empymod/transform.py:qwe", "empymod/transform.py:quad", "empymod/utils.py:conv_warning"]}
{"id": "C20", "title": "Frequency-to-time transform is linear and column-wise", "statement": "Time-domain results are linear in the frequency-domain field, each offset is transformed independently of the others, a step response is the transform of the field divided by i omega, and switch-off is DC minus switch-on.", "quantifier": "every field, offset list, linear Fourier transform", "why_tests_cant": "Over all inputs.", "anchors": ["empymod/model.py:tem", "empymod/transform.py:fourier_dlf", "empymod/kernel.py:halfspace"]}
{"id": "C21", "title": "Waveform convolution weights", "statement": "For an arbitrary piecewise-linear waveform, the result at every requested time is the sum over the segments of the slope of the current times the quadrature of the response over the part of the segment before that time, in the sign convention of the code; segments after the requested time do not contribute. For a response constant in time this is minus the response times the current change since the first node.", "quantifier": "every list of increasing nodes and amplitudes, all requested times, every response and every quadrature rule (exact for constants in the last part)", "why_tests_cant": "Holds for all waveforms; telescoping over any number of segments.", "anchors": ["empymod/utils.py:check_waveform", "empymod/model.py:bipole"]}
{"id": "C22", "title": "FFT length", "statement": "The number of frequencies used for the FFT is at least the requested number, and when chosen automatically it is the smallest power of two with that property.", "quantifier": "every requested number of frequencies", "why_tests_cant": "Number-theoretic statement for all n.", "anchors": ["empymod/utils.py:check_time"]}
{"id": "C23", "title": "Every depth belongs to exactly one layer", "statement": "For a checked model each finite depth is attributed to exactly one layer, the one with depth[i] < z <= depth[i+1]; a point on an interface belongs to the layer above it (smaller z).", "quantifier": "every strictly or weakly increasing list of interfaces, every list of finite depths", "why_tests_cant": "For all models and positions.", "anchors": ["empymod/utils.py:get_layer_nr"]}
{"id": "C24", "title": "Model normalisation", "statement": "check_model returns a depth list that starts at -infinity, contains no +infinity, is increasing, and parameter lists of the same length; giving a model bottom-up (strictly decreasing depths with reversed parameters) yields exactly the same model; isfullspace is reported iff all layers have the same parameters.", "quantifier": "every depth and parameter input", "why_tests_cant": "Normalisation must hold for every accepted input.", "anchors": ["empymod/utils.py:check_model"]}
{"id": "C25", "title": "Minimum values: clipping and history", "statement": "Parameters are replaced by the current minimum iff they are below it; set_minimum changes exactly the given entries, and get_minimum returns the last values set, whatever the sequence of calls.", "quantifier": "every array, every sequence of set_minimum calls", "why_tests_cant": "Quantifies over call histories.", "anchors": ["empymod/utils.py:set_minimum", "empymod/utils.py:get_minimum", "empymod/utils.py:_check_min"]}
{"id": "C26", "title": "Component code validation", "statement": "check_ab accepts exactly the 36 codes with digits 1..6; its magnetic flags tell whether source and receiver digit exceed 3, and ab_calc is the code of the electric problem that is computed in its place.", "quantifier": "every integer", "why_tests_cant": "Over all integers.", "anchors": ["empymod/utils.py:check_ab"]}
{"id": "C27", "title": "Arbitrary orientation equals tensor contraction", "statement": "Summing the responses of the component list chosen for given azimuth and dip, weighted with the geometrical factors, equals the contraction of the full 3x3 response tensor with the unit vectors of source and receiver; components that are skipped have zero weight (up to the stated angular tolerance).", "quantifier": "all azimuths and dips, lists of sources and receivers, all response tensors", "why_tests_cant": "Over a continuum of angles, including the special multiples of 90 degrees where components are dropped.", "anchors": ["empymod/utils.py:get_abs", "empymod/utils.py:get_geo_fact", "empymod/model.py:bipole"]}
{"id": "C28", "title": "Finite-length bipole discretisation", "statement": "Integration points of a finite bipole lie on the straight line between its electrodes, the azimuth/dip reproduce its unit direction vector, one integration point is the midpoint, and the normalised weights sum to one.", "quantifier": "every pair of distinct electrode positions and number of integration points", "why_tests_cant": "For all bipoles.", "anchors": ["empymod/utils.py:get_azm_dip"]}
{"id": "C29", "title": "Result placement for many sources and receivers", "statement": "Element [f, r, s] of the array returned by bipole is the response for receiver r and source s alone, in every combination of equal and varying source and receiver depths (angles closer than 1e-8 rad to a multiple of 90 degrees being exact multiples). Every accepted survey gives a result.", "quantifier": "every number of sources, receivers, frequencies, all depth patterns", "why_tests_cant": "Four placement formulas, combined with tile/repeat orders, must agree for all sizes.", "anchors": ["empymod/model.py:bipole", "empymod/utils.py:get_off_ang", "empymod/utils.py:check_bipole"]}
{"id": "C30", "title": "dipole and bipole agree on coordinate axes", "statement": "An axis-aligned, infinitesimal bipole (azimuth/dip multiples of 90 degrees) reduces to the single component of the corresponding dipole call, with weight one.", "quantifier": "all axis-aligned orientations and electric/magnetic types", "why_tests_cant": "Must hold for every model the reduced call is applied to.", "anchors": ["empymod/model.py:bipole", "empymod/model.py:dipole", "empymod/utils.py:get_abs", "empymod/utils.py:get_geo_fact"]}
{"id": "C31", "title": "Source strength scaling", "statement": "With strength different from zero the bipole response scales linearly with strength and with source and receiver lengths; with strength zero it is normalised to unit length and unit strength.", "quantifier": "all strengths and lengths", "why_tests_cant": "For all real strengths including negative ones.", "anchors": ["empymod/utils.py:get_azm_dip", "empymod/model.py:bipole"]}
{"id": "C32", "title": "Hankel transform names", "statement": "check_hankel accepts exactly the documented names dlf, qwe and quad and rejects every other name.", "quantifier": "every string", "why_tests_cant": "Over all strings.", "anchors": ["empymod/utils.py:check_hankel"]}
{"id": "C33", "title": "Fourier transform names and signals", "statement": "check_time accepts exactly the documented transform names and the signals -1, 0, 1, and chooses sine for impulse and switch-on, cosine for switch-off when not specified.", "quantifier": "every string, every integer signal, scalar or waveform", "why_tests_cant": "Over all inputs.", "anchors": ["empymod/utils.py:check_time", "empymod/utils.py:check_time_only"]}
{"id": "C34", "title": "Keyword handling", "statement": "get_kwargs returns for every requested name the user's value if given and the default otherwise, raises an error iff a keyword is unknown to the package, and warns iff a known but unused one is present.", "quantifier": "every dictionary of keywords", "why_tests_cant": "Over all dictionaries.", "anchors": ["empymod/utils.py:get_kwargs"]}
{"id": "C35", "title": "Frequency and Laplace parameters", "statement": "For positive frequencies eta and zeta are sigma + i omega eps and i omega mu with the correct horizontal/vertical parameters; for negative input (Laplace) they are real and positive; values below the minimum frequency are clipped first.", "quantifier": "every list of frequencies of one sign and every valid model", "why_tests_cant": "For all models and frequencies.", "anchors": ["empymod/utils.py:check_frequency"]}
{"id": "C36", "title": "Phase conventions", "statement": "The phase returned by EMArray.pha differs from the raw angle by multiples of 2 pi only, consecutive unwrapped values differ by at most pi, lead is minus lag, and degrees are radians times 180/pi.", "quantifier": "every array of complex values", "why_tests_cant": "Unwrapping is an inductive statement over array length.", "anchors": ["empymod/utils.py:EMArray.pha"]}
{"id": "C37", "title": "Offsets and angles", "statement": "get_off_ang returns, source-major, the horizontal distance (at least the minimum offset) and the angle such that off*cos(ang), off*sin(ang) are the coordinate differences.", "quantifier": "all source and receiver lists", "why_tests_cant": "Index order must hold for all list lengths.", "anchors": ["empymod/utils.py:get_off_ang"]}
{"id": "C38", "title": "Half-space solution parts add up", "statement": "The diffusive half-space solution equals the sum of its direct, reflected and air-wave parts and of its TE/TM parts, for every component, and switch-off equals DC minus switch-on.", "quantifier": "all supported components, positions, frequencies or times", "why_tests_cant": "Algebraic identity over all inputs.", "anchors": ["empymod/kernel.py:halfspace", "empymod/model.py:analytical"]}
{"id": "C39", "title": "Full-space solution symmetries", "statement": "The full-space response is symmetric under exchange of source and receiver and under rotation about the vertical axis by 90 degrees; magnetic and electric versions are dual.", "quantifier": "all positions and material parameters", "why_tests_cant": "Over all inputs.", "anchors": ["empymod/kernel.py:fullspace"]}
{"id": "C40", "title": "dipole_k is consistent with dipole", "statement": "The wavenumber-domain response returned by dipole_k, Hankel-transformed, is the response returned by dipole, for every component.", "quantifier": "all 36 components", "why_tests_cant": "The mapping of magnetic receivers onto computed components is exercised for few components in tests.", "anchors": ["empymod/model.py:dipole_k", "empymod/model.py:fem", "empymod/kernel.py:angle_factor"]}
{"id": "C41", "title": "GPR gain is optional", "statement": "gpr without gain (the default) returns the unscaled response; with gain it multiplies each time by its factor.", "quantifier": "all inputs", "why_tests_cant": "Default path.", "anchors": ["empymod/model.py:gpr"]}
{"id": "C42", "title": "In-phase and quadrature normalisation", "statement": "ip_and_q returns scale * secondary/primary, where primary uses the same survey in a full space of the first layer; for coplanar loop pairs it is the ratio of the same components.", "quantifier": "all component codes and surveys", "why_tests_cant": "Decision table over all codes.", "anchors": ["empymod/model.py:ip_and_q"]}
{"id": "C43", "title": "Filter cache", "statement": "Every access to a named filter returns the same coefficients irrespective of earlier accesses to any Hankel or Fourier filters, each file is read at most once, and Hankel and Fourier filters of the same name are never mixed up.", "quantifier": "every sequence of accesses", "why_tests_cant": "Quantifies over histories.", "anchors": ["empymod/filters.py:_BaseFilter", "empymod/filters.py:Hankel", "empymod/filters.py:Fourier"]}
{"id": "C44", "title": "Filter file round trip", "statement": "Saving a digital filter and loading it from the same directory and name reproduces base, all coefficient arrays and the spacing factor.", "quantifier": "every filter and every earlier content of the directory", "why_tests_cant": "Quantifies over directory states (histories).", "anchors": ["empymod/filters.py:DigitalFilter.tofile", "empymod/filters.py:DigitalFilter.fromfile"]}
{"id": "C45", "title": "Filter-design file round trip", "statement": "fdesign.save_filter followed by load_filter with full output reproduces the brute-force result: best parameters, value, grid and objective, for every grid size.", "quantifier": "every number of spacing and shift values", "why_tests_cant": "Edge sizes are not all tested.", "anchors": ["empymod/scripts/fdesign.py:save_filter", "empymod/scripts/fdesign.py:load_filter"]}
{"id": "C46", "title": "Grid specification of filter design", "statement": "A (start, stop, num) tuple is expanded to a grid with exactly num equidistant points including both ends.", "quantifier": "all start, stop and num >= 2", "why_tests_cant": "arange end-point handling for all values.", "anchors": ["empymod/scripts/fdesign.py:_ls2ar"]}
{"id": "C47", "title": "Data file round trip", "statement": "load_data(save_data(x)) has the shape and values of x, in text and JSON format, real and complex.", "quantifier": "every 3-D array", "why_tests_cant": "All shapes.", "anchors": ["empymod/io.py:save_data", "empymod/io.py:load_data"]}
{"id": "C48", "title": "Input file round trip", "statement": "load_input(save_input(d)) = d for dictionaries of JSON-representable values.", "quantifier": "every dictionary, including the empty one", "why_tests_cant": "All dictionaries.", "anchors": ["empymod/io.py:save_input", "empymod/io.py:load_input"]}
{"id": "C49", "title": "Command-line interface dispatch", "statement": "The CLI runs the requested routine on the loaded input with squeeze=False, writes the output file iff one is given, and returns input errors instead of raising. The version, the report or the short description is shown iff it is asked for (in this order; the last if there are fewer than two arguments), and then nothing is computed or written.", "quantifier": "all argument lists and outcomes of the called routine", "why_tests_cant": "Over all argument combinations.", "anchors": ["empymod/__main__.py:main", "empymod/__main__.py:run"]}
{"id": "C50", "title": "TM/TE split sums to the full field", "statement": "The up/down-going TM and TE parts returned by tmtemod.dipole sum to the x-directed response of dipole; the non-physical corrections cancel.", "quantifier": "every layered model with source and receiver in the same layer", "why_tests_cant": "Cancellation relies on an identity between TM and TE recursions for every stack.", "anchors": ["empymod/scripts/tmtemod.py:dipole", "empymod/scripts/tmtemod.py:greenfct", "empymod/scripts/tmtemod.py:fields"]}
{"id": "C51", "title": "TM/TE split is translation invariant", "statement": "Shifting interfaces, source and receiver by the same amount does not change the individual TM and TE parts returned by tmtemod.dipole.", "quantifier": "every model and shift", "why_tests_cant": "Continuum of shifts.", "anchors": ["empymod/scripts/tmtemod.py:dipole"]}
{"id": "C52", "title": "Gaver-Stehfest coefficients", "statement": "The coefficients used for the half-space step response reproduce constants exactly and sum to zero.", "quantifier": "the general formula for any even order, in particular K=16", "why_tests_cant": "Floating-point evaluation cannot distinguish exact identities from approximate ones.", "anchors": ["empymod/kernel.py:halfspace"]}
{"id": "C53", "title": "Analytical transform pairs for filter design", "statement": "The analytical right-hand sides offered for filter design are the sine/cosine transforms of the left-hand sides.", "quantifier": "all parameters a > 0, all arguments b > 0, all six pairs, with and without inverse", "why_tests_cant": "Improper integral identity.", "anchors": ["empymod/scripts/fdesign.py:sin_1", "empymod/scripts/fdesign.py:sin_2", "empymod/scripts/fdesign.py:sin_3", "empymod/scripts/fdesign.py:cos_1", "empymod/scripts/fdesign.py:cos_2", "empymod/scripts/fdesign.py:cos_3"]}
{"id": "C54", "title": "Survey expansion", "statement": "Sources and receivers given with some scalar coordinates are expanded to a common size; the depth list has either one entry or as many as sources; inconsistent sizes are rejected.", "quantifier": "all input sizes", "why_tests_cant": "All size combinations.", "anchors": ["empymod/utils.py:check_bipole", "empymod/utils.py:check_dipole", "empymod/utils.py:_check_shape"]}
{"id": "C55", "title": "Full-space responses solve Maxwell's equations", "statement": "In a homogeneous VTI medium the electric and magnetic responses of every dipole source, as functions of the receiver position, satisfy curl E = -zeta H and curl H = eta E everywhere off the vertical axis through the source, with the vertical parameters in the third components.", "quantifier": "all source directions and positions, receiver positions off the source axis, frequencies and Laplace parameters, and passive anisotropic material parameters", "why_tests_cant": "A differential equation in a continuum of points and parameters.", "anchors": ["empymod/kernel.py:fullspace"]}
{"id": "C56", "title": "Isotropic full space equals the textbook dyadics", "statement": "For an isotropic homogeneous medium the 36 responses equal the closed-form dipole fields built from exp(-gamma R)/(4 pi R) with gamma = sqrt(eta zeta), including sign and normalisation.", "quantifier": "all source and receiver positions off the source axis and all passive isotropic parameters", "why_tests_cant": "Equality of formulas over all inputs.", "anchors": ["empymod/kernel.py:fullspace"]}
{"id": "C57", "title": "Diffusive full-space solution is the full one without displacement currents", "statement": "For zero permittivities and unit permeabilities, analytical with solution='dfs' returns exactly what it returns with solution='fs', for every electric source and receiver component, including the error cases.", "quantifier": "all positions, resistivities, anisotropies, non-empty arrays of frequencies or Laplace parameters, and nine components", "why_tests_cant": "Two independent closed forms have to agree as functions of seven real parameters.", "anchors": ["empymod/model.py:analytical", "empymod/kernel.py:fullspace", "empymod/kernel.py:halfspace"]}
{"id": "C58", "title": "Half-space time and Laplace domain fit together", "statement": "For the direct and reflected TE and TM parts of the half-space solution the impulse response is the time derivative of the switch-on response, and its Laplace transform is the response returned for a real Laplace parameter.", "quantifier": "all components, positions, passive anisotropic media, times and positive Laplace parameters", "why_tests_cant": "Derivatives and improper integrals over all parameters.", "anchors": ["empymod/kernel.py:halfspace"]}
{"id": "C59", "title": "Analytical full space equals dipole", "statement": "analytical with solution='fs' returns the field of dipole for a model without interfaces and xdirect=True, for any Hankel transform and loop setting, including the error cases.", "quantifier": "all surveys, one-layer models given as arrays, frequency inputs and components", "why_tests_cant": "Two code paths compared for all inputs; the Hankel transform must not be reached.", "anchors": ["empymod/model.py:analytical", "empymod/model.py:dipole", "empymod/model.py:fem"]}
{"id": "C60", "title": "Parameters and inputs of the diffusive solutions", "statement": "The diffusive solutions of analytical do not depend on the magnetic permeabilities nor on the electric permittivities, as documented, and accept every documented frequency input.", "quantifier": "all surveys, models, frequencies, times, signals, components", "why_tests_cant": "Independence of a parameter is a statement about pairs of runs.", "anchors": ["empymod/model.py:analytical", "empymod/kernel.py:halfspace", "empymod/utils.py:check_frequency"]}
{"id": "C61", "title": "Computed points cover the points that are interpolated", "statement": "When a transform interpolates responses computed on a coarser grid (splined filter, FFT with logarithmic frequencies, FFTLog times, QWE frequencies), every point at which it interpolates lies between computed points, so that nothing is extrapolated.", "quantifier": "all offsets or times, filters, numbers of points per decade and transform settings", "why_tests_cant": "A grid that is short by one point only shows for particular offsets or times, and extrapolation still returns a smooth number.", "anchors": ["empymod/transform.py:get_dlf_points", "empymod/transform.py:get_fftlog_input", "empymod/utils.py:check_time"]}
{"id": "C62", "title": "Hankel transform pairs for filter design", "statement": "The right-hand sides of the Hankel transform pairs offered for filter design are the Hankel transforms (kernel J0 or J1 as the pair is named) of the left-hand sides.", "quantifier": "all parameters a > 0, all frequencies, resistivities > 0, depths z != 0, all arguments", "why_tests_cant": "Improper oscillatory integral identity over all parameters; the tests only compare with stored filters.", "anchors": ["empymod/scripts/fdesign.py:j0_1", "empymod/scripts/fdesign.py:j0_2", "empymod/scripts/fdesign.py:j0_3", "empymod/scripts/fdesign.py:j0_4", "empymod/scripts/fdesign.py:j0_5", "empymod/scripts/fdesign.py:j1_1", "empymod/scripts/fdesign.py:j1_2", "empymod/scripts/fdesign.py:j1_3", "empymod/scripts/fdesign.py:j1_4", "empymod/scripts/fdesign.py:j1_5"]}
{"id": "C63", "title": "Flux and current densities are the fields times the parameter of the layer of the pole", "statement": "In bipole, a receiver or source given as 'b' (or 'loop') yields the response of the corresponding magnetic pole multiplied with zetaH of the layer in which the pole lies, and a receiver given as 'j' the response of the electric receiver multiplied with etaH of its layer, element by element for every frequency, receiver and source, whatever the other pole is, and whenever the call with densities succeeds the plain call succeeds.", "quantifier": "all surveys of dipoles or finite bipoles whose integration points lie in one layer per pole, all models, frequencies and Laplace parameters, strengths, numbers of integration points and Hankel transforms", "why_tests_cant": "The factor depends on frequency, layer and pole; tests check a handful of source-receiver pairs, so a factor taken from the wrong layer (source for receiver) or the wrong parameter is only seen if the layers differ in just that parameter.", "anchors": ["empymod/model.py:bipole", "empymod/utils.py:check_bipole"]}
{"id": "C64", "title": "Half-space solution: images, exchange, rotation and static limit", "statement": "For the analytical diffusive half-space solution: the reflected TM part equals the direct TM part of a source mirrored at the surface (opposite sign for a vertical source); the vertical electric field at the surface is zero for every source; exchanging source and receiver (component digits, depths, direction) leaves every part unchanged; the response at any azimuth follows from the inline and broadside responses by the tensor rotation rule, part by part; and as the Laplace parameter goes to zero the total tends to the electrostatic field of the dipole and of its image, the reflected TE part and the airwave cancelling each other.", "quantifier": "all electric components, offsets, angles, depths, (VTI) resistivities, frequencies, Laplace parameters and times of the half-space solution; the static limit for every pair of functions with the behaviour of the scaled modified Bessel functions near zero", "why_tests_cant": "The regression tests compare a few stored numbers; a sign error in an image term or in the airwave for an untested component or azimuth is invisible to them, and a limit cannot be sampled.", "anchors": ["empymod/kernel.py:halfspace", "empymod/model.py:analytical"]}
{"id": "C65", "title": "Wavenumber-domain response of a homogeneous medium transforms to the full-space solution", "statement": "For a stack of layers that all have the same (possibly anisotropic) properties, the integral over all wavenumbers of the wavenumber-domain response, combined with the Bessel functions and angle factors the way the Hankel transforms do, converges, and its value is the closed-form full-space response for the same source, receiver and component. This holds for every component except the vanishing pair, for all depths of source and receiver that differ, all positive offsets and all azimuths; two magnetic dipoles are included for positive permittivities.", "quantifier": "all 34 components, all complex horizontal and vertical properties of a passive medium, all interfaces, all source and receiver depths that differ, all positive offsets, all azimuths", "why_tests_cant": "The test-suite compares the numerical Hankel transforms with the full-space solution at a few settings and tolerances; it cannot show that the two independent code paths (wavenumber kernel and closed form) are the same function.", "anchors": ["empymod/kernel.py:wavenumber", "empymod/kernel.py:greenfct", "empymod/kernel.py:angle_factor", "empymod/kernel.py:fullspace"]}
{"id": "C66", "title": "Direct-field switch does not change the space-domain result", "statement": "With source and receiver in the same layer, the integral over all wavenumbers of the response without direct field (xdirect=True) plus the closed-form full-space response of that layer equals the integral of the response with direct field (xdirect=False); if one integral converges so does the other. With source and receiver in different layers the switch has no effect.", "quantifier": "all passive stacks, all 34 components, all depths that differ, positive offsets, all azimuths", "why_tests_cant": "Tests check a handful of models numerically; the statement relates two code paths for every stack, component and geometry.", "anchors": ["empymod/kernel.py:wavenumber", "empymod/kernel.py:greenfct", "empymod/kernel.py:fullspace", "empymod/model.py:fem"]}
{"id": "C67", "title": "FFT transform to the time domain is the inverse Fourier sum", "statement": "The time-domain response computed with the Fast Fourier Transform is, at the times of its own grid, the inverse Fourier sum over the given (and linearly tapered) positive frequencies and their conjugates at the negative frequencies, multiplied by the frequency step.", "quantifier": "all complex frequency responses, all numbers of frequencies and zero-padding lengths, all frequency steps, all times of the grid", "why_tests_cant": "The test-suite compares one response with a reference at a loose tolerance, which hides a shift of part of the spectrum by two frequency steps.", "anchors": ["empymod/transform.py:fourier_fft", "empymod/model.py:tem"]}
{"id": "C68", "title": "FFTLog multiplies every harmonic by its factor", "statement": "The logarithmic FFT returns, on its time grid, the input samples times a power of the frequency, with every discrete harmonic multiplied by the prescribed complex factor (ratio of gamma functions times a phase), the highest harmonic of an even number of points by the real part, times a power of time. Without bias all factors have modulus one, so the norm of the weighted samples is kept.", "quantifier": "all numbers of frequencies, all biases, sine and cosine, all complex responses, any log-gamma function", "why_tests_cant": "The tests use one even number of points without bias; odd numbers of points and biased transforms are wrong in the highest harmonic only, which no tolerance test isolates.", "anchors": ["empymod/transform.py:fourier_fftlog", "empymod/transform.py:get_fftlog_input"]}
{"id": "C69", "title": "Fourier transform by quadrature with extrapolation integrates over half periods", "statement": "The Fourier transform by quadrature-with-extrapolation extrapolates the sequence of Gauss-quadrature integrals of the interpolated response times sine or cosine over consecutive half periods; every time is transformed independently of the other times, by extrapolation if the response never decays steeply within an interval and by adaptive quadrature otherwise.", "quantifier": "all interpolated responses, all times, all numbers of nodes and intervals, all tolerances, sine and cosine", "why_tests_cant": "A single comparison with a smooth response agrees to a few digits although single quadrature nodes are extrapolated instead of integrals over half periods.", "anchors": ["empymod/transform.py:fourier_qwe", "empymod/transform.py:qwe"]}
{"id": "C70", "title": "Hankel transforms by quadrature integrate the layered kernels", "statement": "The Hankel transform by quadrature with extrapolation returns, for every offset, the extrapolated sum of Gauss quadratures of the kernels times Bessel functions over intervals bounded by the zeros of J1, and every offset is transformed independently of the other offsets; with interpolated kernels an offset whose kernel decays too fast is integrated adaptively instead. The adaptive transform returns, if its quadratures are exact, the integral of the interpolated kernels between the given limits.", "quantifier": "all kernels (in particular those of passive layered media), all components, offsets, angles, numbers of nodes and intervals, tolerances and interpolation densities", "why_tests_cant": "Tests compare a few responses with stored values; that a result changes with the other offsets of the call, or that the decay test reads the interpolation outside its range, is not seen in one comparison.", "anchors": ["empymod/transform.py:hankel_qwe", "empymod/transform.py:hankel_quad", "empymod/transform.py:quad"]}
{"id": "C71", "title": "A designed filter is the least-squares solution for its transform pairs", "statement": "The filter calculated for a spacing and a shift has a geometric base with quotient exp(spacing) and middle value exp(shift), and for every transform pair its values are the unique least-squares solution of the system which demands that the filter reproduce the pair at the design points (a logarithmic scale around the inverse of the base); it is zero if the system has fewer equations than values or dependent columns. If some filter reproduces the pair at these points exactly, it is the one found, and the transform with it gives the right-hand side there.", "quantifier": "all filter lengths, spacings, shifts, lists of transform pairs with values on the positive numbers, design ranges and factors, real or imaginary part", "why_tests_cant": "Tests compare one designed filter with stored numbers; that no other filter fits better, for any pair, cannot be tested.", "anchors": ["empymod/scripts/fdesign.py:_calculate_filter", "empymod/scripts/fdesign.py:design"]}
{"id": "C72", "title": "The filter design returns the best filter of the grid and leaves the pairs alone", "statement": "The filter design returns the filter of a grid point with the smallest rating; a finite rating is the amplitude (or inverse distance) at a point before which at most four points are off by more than the error level; several pairs are rated by the worst of them; and the transform pairs given by the user are not changed, so that a call can be repeated and fC=fI is the same as leaving fC out.", "quantifier": "all transform pairs, grids, error levels, evaluation points and both ratings", "why_tests_cant": "Tests call the design once per pair with one or two grids and look at the filter, not at the pairs afterwards or at ratings of bad filters.", "anchors": ["empymod/scripts/fdesign.py:design", "empymod/scripts/fdesign.py:_get_min_val"]}
{"id": "C73", "title": "The transform pairs computed with the modeller are consistent", "statement": "For a pair made by empy_hankel the response which the filter design computes for a candidate filter is the response of dipole with this filter (direct field in the wavenumber domain), so what is rated is what a user of the filter gets. The right-hand side of the pair is the Hankel transform of the left-hand side: exactly in a full space; by quadrature with extrapolation if source and receiver are in different layers; and as closed-form direct field plus quadrature of the rest if they are in one layer. Names other than j0, j1 and j2 give pairs whose functions fail.", "quantifier": "all models (layers, anisotropy, permittivities, permeabilities), frequencies and Laplace parameters, depths of source and receiver, filters, distances not below the minimum offset, quadrature settings", "why_tests_cant": "Tests compare both sides for one model and a few distances with numerical tolerances.", "anchors": ["empymod/scripts/fdesign.py:empy_hankel", "empymod/model.py:dipole", "empymod/model.py:dipole_k"]}
{"id": "C74", "title": "The half-space solution is continuous at zero offset", "statement": "For a receiver straight above or below the source (horizontal offset zero, source and receiver at different depths and not mirror images of each other) the diffusive half-space solution equals the limit of the solution for small offsets, in every direction of the offset: for the direct field, the reflected field, the airwave and their sum.", "quantifier": "the nine electric components, all half-spaces with vertical anisotropy, depths, angles, non-zero Laplace parameters and frequencies, positive times (switch-on and impulse), all positions in the list", "why_tests_cant": "Offset zero is a separate branch which the minimum offset hides by default; one value cannot show whether it is the limit.", "anchors": ["empymod/kernel.py:halfspace"]}
{"id": "C75", "title": "The half-space solution solves the diffusive Maxwell equations", "statement": "Away from the source, in the ground, the electric field returned by the diffusive half-space solution satisfies curl curl E = -mu0 sigma dE/dt with the horizontal conductivity for the horizontal components and the vertical one for the vertical component. In the frequency or Laplace domain (dE/dt = s E) this holds for each of the direct TE and TM, reflected TE and TM and airwave parts on its own, and for the returned full-space and half-space fields. In the time domain it holds for every part of the impulse response and for the returned impulse response, and for the direct and reflected parts of the step response, whose time derivative is the impulse response. The switch-off response misses it by the impulse response at 10^4 s.", "quantifier": "all source positions and directions, all receivers off the vertical line through the source with receiver depth + source depth positive, all half-spaces with vertical anisotropy, all complex frequencies off the negative real axis and positive times, all positions in the list", "why_tests_cant": "A differential equation relates values at neighbouring points; tests compare single values with stored numbers.", "anchors": ["empymod/kernel.py:halfspace", "empymod/model.py:analytical"]}
{"id": "C76", "title": "The wavenumber integral of a layered model converges", "statement": "For a layered model the integral over the wavenumber that defines the response exists whenever source and receiver are at different depths, with and without the direct field, and at equal depths for the reflected field. Its integrand decays exponentially in the wavenumber, at a rate per metre of depth difference that depends on the model only, and cutting the integral off at T changes it by at most K exp(-c T).", "quantifier": "all layered models with vertically anisotropic layers whose admittivities and impedivities are passive, any number of layers, all source and receiver components, depths, offsets and angles", "why_tests_cant": "Convergence concerns the integrand at arbitrarily large wavenumbers; a quadrature test only samples finitely many, and returns a number for divergent integrals too.", "anchors": ["empymod/kernel.py:wavenumber", "empymod/kernel.py:greenfct", "empymod/transform.py:hankel_quad", "empymod/transform.py:hankel_qwe"]}
{"id": "C77", "title": "Layered responses solve Maxwell's equations and the interface conditions", "statement": "For a source of any of the six types in a layered model, the electric and magnetic responses as functions of the receiver position satisfy the diffusive Maxwell equations (both curl equations, with the horizontal and vertical parameters of the layer of the receiver) in every layer away from the source depth. At the interfaces the horizontal components are continuous in depth, and so are the vertical electric one times the vertical admittivity and the vertical magnetic one times the vertical impedivity.", "quantifier": "all layered models with vertically anisotropic passive layers, any number of layers, all six source and receiver types and directions, all positions with a non-zero horizontal offset and different depths", "why_tests_cant": "The claim is about derivatives of an infinite integral at every point of space and about limits at the interfaces; a test compares a few numbers at a few points against other codes.", "anchors": ["empymod/kernel.py:wavenumber", "empymod/kernel.py:angle_factor", "empymod/kernel.py:greenfct", "empymod/kernel.py:reflections", "empymod/kernel.py:fields", "empymod/utils.py:get_off_ang", "empymod/model.py:fem", "empymod/model.py:dipole"]}
{"id": "C78", "title": "Symmetries of layered responses in space", "statement": "The response of a layered model at a receiver position is unchanged when source and receiver are exchanged (with a sign change between electric and magnetic ones), when electric and magnetic components and admittivities and impedivities are exchanged (same sign rule), when the model is turned upside down or reflected at a vertical plane (with the signs of vectors and pseudo-vectors), when everything is moved, and when an interface is added inside a layer; rotating the receiver around the source rotates the tensor of the 36 responses.", "quantifier": "all passive vertically anisotropic layered models, all 36 combinations of source and receiver components, all positions with non-zero horizontal offset, all rotation angles and displacements", "why_tests_cant": "Each symmetry relates two runs for every model and geometry; the codes 11 to 66 go through different branches with different signs, and tests compare few of them at few points.", "anchors": ["empymod/kernel.py:wavenumber", "empymod/kernel.py:angle_factor", "empymod/kernel.py:greenfct", "empymod/kernel.py:reflections", "empymod/kernel.py:fields", "empymod/utils.py:check_ab", "empymod/model.py:dipole"]}
{"id": "C79", "title": "Responses with separate direct field solve Maxwell's equations at the source depth too", "statement": "With xdirect=None the field reflected at the interfaces satisfies the diffusive Maxwell equations in the whole layer of the source, including the depth of the source. With xdirect=True the response, reflected field plus the closed-form direct field, satisfies them in every layer at every point off the vertical line through the source, including the depth of the source, and equals the response of xdirect=False away from that depth.", "quantifier": "all passive vertically anisotropic layered models, all source types and directions, sources inside a layer, all receiver positions inside a layer with non-zero horizontal offset", "why_tests_cant": "The equations relate derivatives of the response at every point; tests compare single values and rarely put source and receiver at one depth.", "anchors": ["empymod/model.py:fem", "empymod/kernel.py:wavenumber", "empymod/kernel.py:fields", "empymod/kernel.py:greenfct", "empymod/kernel.py:fullspace"]}
{"id": "C80", "title": "Scaling law of layered responses", "statement": "If all coordinates and interface depths are multiplied by L, all admittivities by a and all impedivities by b with a*b*L^2 = 1, the electric response to an electric source is divided by a*L^3, the magnetic response to a magnetic source by b*L^3, and the mixed responses by L^2. In particular the response of a model at L-fold lengths, frequency divided by L^2 and relative permittivities multiplied by L^2 is the response of the model divided by L^3, L^2 or L.", "quantifier": "all passive vertically anisotropic layered models, all positive scale factors, all source and receiver components, all positions with non-zero horizontal offset", "why_tests_cant": "It relates the responses of infinitely many pairs of models; tests compare to stored values of a few.", "anchors": ["empymod/model.py:fem", "empymod/kernel.py:wavenumber", "empymod/kernel.py:greenfct", "empymod/kernel.py:reflections", "empymod/kernel.py:fields", "empymod/utils.py:check_frequency"]}
{"id": "C81", "title": "Responses at negative frequencies are complex conjugates, Laplace responses are real", "statement": "Complex conjugate parameters give the complex conjugate response, so that the response at frequency -f is the conjugate of the one at f, as the transforms to the time domain assume; and in the Laplace domain, where all parameters are real, the response is real.", "quantifier": "all passive vertically anisotropic layered models, all source and receiver components, all positions with non-zero horizontal offset", "why_tests_cant": "Negative frequencies are never computed (they select the Laplace domain), so no test can compare them; the reality of Laplace responses is tested for single models.", "anchors": ["empymod/model.py:fem", "empymod/kernel.py:wavenumber", "empymod/kernel.py:greenfct", "empymod/utils.py:check_frequency", "empymod/transform.py:fourier_fft"]}
{"id": "C82", "title": "A layer of zero thickness has no effect", "statement": "Repeating an interface depth, that is inserting a layer of zero thickness with any passive parameters at an interface, leaves every kernel value, and so every response in space, unchanged, also if the source or the receiver lies on that interface.", "quantifier": "all passive vertically anisotropic layered models, all interfaces, all parameters of the inserted layer, all wavenumbers, all source and receiver components and depths, with and without separate direct field", "why_tests_cant": "It relates the responses of infinitely many pairs of models, with factors that are 0/0-prone limits of the reflection recursion; tests use a few models with positive thicknesses.", "anchors": ["empymod/kernel.py:reflections", "empymod/kernel.py:fields", "empymod/kernel.py:greenfct", "empymod/utils.py:check_model", "empymod/utils.py:get_layer_nr"]}
{"id": "C83", "title": "A source never takes power from a passive model", "statement": "At the depth of a horizontal electric or magnetic dipole the field of each of the two modes opposes the dipole at every wavenumber (its real part in the direction of the source is strictly negative), so the source delivers power to every passive layered model.", "quantifier": "all passive vertically anisotropic layered models with any number of layers, all source depths (also on interfaces), all positive wavenumbers, electric and magnetic dipoles", "why_tests_cant": "The sign must hold for every stack of layers and every wavenumber; a wrong sign of one reflection in a deep stack changes stored test values only slightly.", "anchors": ["empymod/kernel.py:wavenumber", "empymod/kernel.py:greenfct", "empymod/kernel.py:reflections", "empymod/kernel.py:fields"]}
{"id": "C84", "title": "Distant layers lose their influence", "statement": "If all layers below (or all layers above) a given layer of a model are moved away from it, every response tends to the response of the model that ends (or begins) with that layer; in the wavenumber domain for every wavenumber, in space exponentially in the distance moved.", "quantifier": "all passive layered models, all positions of the cut, all source and receiver depths (in space: different ones), all components, with and without the direct field", "why_tests_cant": "A limit over the depth of interfaces for all models; stored values are at fixed depths, and an error of a reflection from below that does not decay shows only for special stacks.", "anchors": ["empymod/kernel.py:wavenumber", "empymod/kernel.py:greenfct", "empymod/kernel.py:reflections", "empymod/kernel.py:fields"]}
{"id": "C85", "title": "User-supplied functions act where documented", "statement": "A model given as a dictionary whose functions return the eta and zeta of some other model gives exactly that model's response in dipole and bipole, in frequency and time; functions that change nothing give the response of the plain array; the functions see the layers from top to bottom however they were listed, including the user's own parameters; func_zeta sees the eta returned by func_eta. A bandpass function is applied to the frequency-domain response: multiplication with a function of frequency multiplies every response, and in time it acts before the transform. The deprecated routine loop is bipole with a flux source of one point, whatever keywords are passed on.", "quantifier": "all user functions, all layered models, surveys, components, frequencies, times, Hankel and Fourier transforms; for the equality with a uniform plain array only with xdirect=False (the full-space shortcut)", "why_tests_cant": "The functions are arbitrary; tests use one Cole-Cole model and one cut-off, and do not compare the order of calls or all listings of layers.", "anchors": ["empymod/model.py:bipole", "empymod/model.py:dipole", "empymod/model.py:loop", "empymod/model.py:dipole_k", "empymod/utils.py:check_model"]}
{"id": "C86", "title": "Responses depend continuously on the model and the survey", "statement": "If resistivities, anisotropies, permittivities, permeabilities, interface depths, frequency (or Laplace parameter), wavenumber, offset, angle factor and the depths of source and receiver converge, then the wavenumber-domain response and the space-domain response computed with the digital linear filter converge to the response of the limit, jointly in all of these, for all frequencies and offsets of a survey. In the time domain the responses converge, too, for every signal and every linear Fourier transform. Source and receiver may sit on an interface as long as the layers they are assigned to do not change.", "quantifier": "all passive models with any number of layers, all component codes, all filters, arbitrary families of models (sequences, real parameters, any filter on any index set); the limit has a frequency other than zero, a positive offset, source and receiver off the interfaces (or in fixed layers), and different depths if the direct field is computed in the wavenumber domain", "why_tests_cant": "A limit ranges over all small changes of all parameters at once; tests compare a few models.", "anchors": ["empymod/kernel.py:greenfct", "empymod/kernel.py:reflections", "empymod/kernel.py:fields", "empymod/kernel.py:wavenumber", "empymod/transform.py:hankel_dlf", "empymod/utils.py:check_frequency", "empymod/model.py:tem"]}
{"id": "C87", "title": "The exact response depends continuously on the model and the survey", "statement": "If resistivities, anisotropies, permittivities, permeabilities, interface depths, frequency (or Laplace parameter), offset, angle and the depths of source and receiver converge, then the exact response, that is the improper Hankel integral of the wavenumber-domain response that every Hankel transform approximates, converges to the exact response of the limit, jointly in all of these. There is no filter or quadrature involved. With xdirect=True and source and receiver in the same layer the same holds for the part that remains in the wavenumber domain, also at equal depths.", "quantifier": "all layered models with positive resistivities and any number of layers, all component codes, with and without the direct field in the wavenumber domain, arbitrary families of models (sequences, real parameters, any filter on any index set); the limit has strictly increasing depths, a frequency other than zero, an offset other than zero, and source and receiver off the interfaces and at different depths (at any depths for the reflected part)", "why_tests_cant": "The exact response is a limit of integrals, the statement ranges over all small changes of all parameters at once.", "anchors": ["empymod/kernel.py:greenfct", "empymod/kernel.py:reflections", "empymod/kernel.py:fields", "empymod/kernel.py:wavenumber", "empymod/kernel.py:angle_factor", "empymod/transform.py:hankel_qwe", "empymod/transform.py:hankel_quad", "empymod/utils.py:check_frequency"]}
{"id": "C88", "title": "Error of quadrature with extrapolation", "statement": "If the extrapolated sums approach a value by at least a factor q per interval, as far as the intervals are reached, then every element that quadrature with extrapolation declares converged is within (rtol*|value| + atol)/(1 - q*(1 + rtol)) of that value, for the routine itself and for the Hankel transform without interpolation. Contributions that form a geometric series from the second interval on are summed exactly. With exact quadratures the sums over the intervals of a layered response tend to the exact response without the piece before the first division point.", "quantifier": "all contributions, tolerances, numbers of intervals and elements, all kernels and offsets; series with any complex ratio other than 0 and 1; the limit for all layered media and component codes, source and receiver at different depths, and all division points that tend to infinity", "why_tests_cant": "An error bound ranges over all series; tests compare single results with stored values. The exactness and the limit are statements about infinite series.", "anchors": ["empymod/transform.py:qwe", "empymod/transform.py:hankel_qwe"]}
{"id": "C89", "title": "Source and receiver at equal depths", "statement": "The analytical full-space solution depends continuously on medium, depths, offset and angle, also at equal depths of source and receiver. If source and receiver are in the same layer, the sum of this solution and of the exact reflected field, which is what xdirect=True computes, is continuous in all parameters, again including equal depths. At equal depths the sum is the limit of the exact responses with xdirect=False, which exist at different depths only.", "quantifier": "all layered models with any number of layers, all component codes, frequency and Laplace domain, arbitrary families of media, depths, offsets and angles (any filter on any index set); the limit has an offset other than zero and source and receiver strictly inside one layer; for two magnetic dipoles the conditions of C66", "why_tests_cant": "A limit over all families of parameters. At equal depths the integral for xdirect=False does not converge absolutely, so a test can only compare approximations.", "anchors": ["empymod/kernel.py:fullspace", "empymod/kernel.py:greenfct", "empymod/kernel.py:wavenumber", "empymod/model.py:fem"]}
{"id": "C90", "title": "Weak contrasts", "statement": "If an interface has a contrast that tends to zero, the exact response tends to the response of the model without this interface. If the parameters of all layers tend to common values, the exact response tends to the analytical full-space solution for these values. With xdirect=True, where the full-space solution is added to the exact reflected field, both statements also hold at equal depths of source and receiver.", "quantifier": "all layered models with any number of layers, all component codes, frequency and Laplace domain, arbitrary families of media, interface depths, source and receiver depths, offsets and angles (any filter on any index set); in the limit the offset is not zero (positive for the full-space) and neither source nor receiver lies on an interface; their depths differ with xdirect=False, they are in the same layer with xdirect=True; for two magnetic dipoles and the full-space the conditions of C66", "why_tests_cant": "A limit over all families of models, for the exact integral; a test compares a few models with a few small contrasts and the numerical transforms add their own error.", "anchors": ["empymod/kernel.py:wavenumber", "empymod/kernel.py:greenfct", "empymod/kernel.py:reflections", "empymod/kernel.py:fields", "empymod/kernel.py:fullspace"]}
