{"id": "C01", "title": "Interpolation lies on the polyline", "statement": "interp_x_y(x, y, xi): for a polyline whose x never decreases, a point xi strictly inside a segment [x[i], x[i+1]] of positive width gets exactly the chord value y[i]+(xi-x[i])*(y[i+1]-y[i])/(x[i+1]-x[i]); a point left of x[0] gets y[0] and a point right of x[-1] gets y[-1].", "quantifier": "every polyline of every length with non-decreasing x (steps included) and every query point", "why_tests_cant": "the number, spacing and stepping of the vertices is unbounded; tests look at a handful of 3-6 point lines", "anchors": ["geotecha/piecewise/piecewise_linear_1d.py:interp_x_y", "geotecha/piecewise/piecewise_linear_1d.py:segment_containing_xi"]}
{"id": "C02", "title": "Interpolation never overshoots", "statement": "interp_x_y(x, y, xi) always returns a value between min(y) and max(y), whatever xi is and on whichever side of the data it falls.", "quantifier": "every non-decreasing polyline and every real query point, with choose_max either way", "why_tests_cant": "range containment for all lines and all points is a universal statement", "anchors": ["geotecha/piecewise/piecewise_linear_1d.py:interp_x_y"]}
{"id": "C03", "title": "choose_max picks the side of a vertical step", "statement": "When xi is exactly a breakpoint shared by several segments, interp_x_y uses the first segment of positive width touching xi if choose_max is False (the value just before a step) and the last one if choose_max is True (the value just after the step).", "quantifier": "every non-decreasing polyline with any number of stacked steps, every breakpoint", "why_tests_cant": "stacked/repeated steps at every position cannot be enumerated", "anchors": ["geotecha/piecewise/piecewise_linear_1d.py:segment_containing_xi", "geotecha/piecewise/piecewise_linear_1d.py:interp_x_y"]}
{"id": "C04", "title": "A query point is assigned to at most one, correct, segment", "statement": "segment_containing_xi(x, xi): the list returned for each point is empty or a single index i with x[i] <= xi <= x[i+1] and x[i] != x[i+1]; it is empty exactly when no positive-width segment contains xi.", "quantifier": "every non-decreasing x, every list of query points, choose_max either way", "why_tests_cant": "needs every point/segment configuration", "anchors": ["geotecha/piecewise/piecewise_linear_1d.py:segment_containing_xi"]}
{"id": "C05", "title": "Segments before a point are exactly the completed ones", "statement": "segments_less_than_xi(x, xi, or_equal_to) returns exactly the indices i, in increasing order, of segments that end strictly before xi (at or before xi when or_equal_to is True); together with the segment containing xi and the later ones it accounts for every segment exactly once.", "quantifier": "every x, every query point, or_equal_to either way", "why_tests_cant": "exactness (no missing and no extra index) for all inputs", "anchors": ["geotecha/piecewise/piecewise_linear_1d.py:segments_less_than_xi"]}
{"id": "C06", "title": "Segments between two points", "statement": "segments_between_xi_and_xj(x, xi, xj) with xi <= xj inside the x-range: the 'both', 'xi only', 'xj only' and 'between' index lists are such that the parts of the segments they describe tile the interval [xi, xj] with no gap and no overlap of positive width.", "quantifier": "every non-decreasing x, every pair of points inside its range", "why_tests_cant": "tiling must hold for each position of the two points relative to each step", "anchors": ["geotecha/piecewise/piecewise_linear_1d.py:segments_between_xi_and_xj"]}
{"id": "C07", "title": "integrate_x_y_between_xi_xj is the integral of the interpolant", "statement": "For xi < xj inside the x-range, integrate_x_y_between_xi_xj(x, y, xi, xj) equals the mathematical (Riemann) integral from xi to xj of the function xi -> interp_x_y(x, y, xi). (Known limit: for the empty interval xi == xj at an interior vertex it does not return 0 but the sum of the two adjacent trapezia.)", "quantifier": "every non-decreasing polyline and every sub-interval of its range", "why_tests_cant": "equality with an integral is a statement over a continuum", "anchors": ["geotecha/piecewise/piecewise_linear_1d.py:integrate_x_y_between_xi_xj", "geotecha/piecewise/piecewise_linear_1d.py:interp_x_y"]}
{"id": "C08", "title": "Integration over adjacent intervals adds up", "statement": "integrate_x_y_between_xi_xj over [a,b] plus over [b,c] equals the integral over [a,c], wherever b falls (inside a segment, on a vertex, on a step).", "quantifier": "every non-decreasing polyline, every a <= b <= c in range", "why_tests_cant": "b may be on any of unboundedly many vertices/steps", "anchors": ["geotecha/piecewise/piecewise_linear_1d.py:integrate_x_y_between_xi_xj"]}
{"id": "C09", "title": "Averages are integrals divided by width and stay within the data", "statement": "avg_x_y_between_xi_xj(x, y, xi, xj) times (xj-xi) equals integrate_x_y_between_xi_xj, and the average lies between min(y) and max(y).", "quantifier": "every non-decreasing polyline, every xi < xj in range", "why_tests_cant": "universal bound", "anchors": ["geotecha/piecewise/piecewise_linear_1d.py:avg_x_y_between_xi_xj", "geotecha/piecewise/piecewise_linear_1d.py:integrate_x_y_between_xi_xj"]}
{"id": "C10", "title": "Product integrals are exact", "statement": "integrate_x1a_x2a_y1a_y2a_multiply_x1b_x2b_y1b_y2b_between: for two layered piecewise-linear functions sharing breakpoints, the closed-form contribution of every layer equals the integral over (its part of) the layer of the product of the two linear functions.", "quantifier": "every layer geometry and end values", "why_tests_cant": "a cubic closed form with dozens of terms; equality over a continuum", "anchors": ["geotecha/piecewise/piecewise_linear_1d.py:integrate_x1a_x2a_y1a_y2a_multiply_x1b_x2b_y1b_y2b_between"]}
{"id": "C11", "title": "Layer form and point form convert both ways without loss", "statement": "Converting layers (x1,x2,y1,y2) to points with convert_x1_x2_y1_y2_to_x_y and back with convert_x_y_to_x1_x2_y1_y2 returns the same layers, for contiguous layers of positive thickness.", "quantifier": "every list of contiguous positive-thickness layers (any number)", "why_tests_cant": "round trip over all lists", "anchors": ["geotecha/piecewise/piecewise_linear_1d.py:convert_x1_x2_y1_y2_to_x_y", "geotecha/piecewise/piecewise_linear_1d.py:convert_x_y_to_x1_x2_y1_y2"]}
{"id": "C12", "title": "force_strictly_increasing gives a strictly increasing line", "statement": "In exact arithmetic: force_strictly_increasing(x, y, eps) returns a result exactly for monotone x (ValueError otherwise); no point moves by more than len(x)*eps and y is only reversed together with x; the returned x is strictly increasing whenever all non-zero gaps exceed len(x)*eps. (Known limits: in binary64 the eps shift can be absorbed so that the result is NOT strictly increasing, and the caller's float array is overwritten by the moved points whenever x was not strictly monotone, and only then.)", "quantifier": "every monotone x, every y, every eps > 0", "why_tests_cant": "depends on binary64 rounding at every magnitude", "anchors": ["geotecha/piecewise/piecewise_linear_1d.py:force_strictly_increasing"]}
{"id": "C13", "title": "force_non_decreasing", "statement": "force_non_decreasing(x, y) returns an x that never decreases and leaves an already non-decreasing input unchanged; if x decreases throughout, the line is reversed together with y; an x that is neither raises ValueError.", "quantifier": "every x, y of equal length", "why_tests_cant": "all orders of all lengths", "anchors": ["geotecha/piecewise/piecewise_linear_1d.py:force_non_decreasing"]}
{"id": "C14", "title": "Segment classification is a partition", "statement": "ramps_constants_steps(x, y): for a line on which no two consecutive points coincide, every segment index appears in exactly one of ramps, constants, steps, in increasing order: steps are the zero-width segments, constants the positive-width ones with equal y, ramps the rest. (Known limit: with a doubled point the deletion is by position instead of by index and another segment is lost.)", "quantifier": "every x, y of equal length without doubled points", "why_tests_cant": "index bookkeeping (positions vs indices) only goes wrong for particular mixes", "anchors": ["geotecha/piecewise/piecewise_linear_1d.py:start_index_of_ramps", "geotecha/piecewise/piecewise_linear_1d.py:start_index_of_constants", "geotecha/piecewise/piecewise_linear_1d.py:start_index_of_steps", "geotecha/piecewise/piecewise_linear_1d.py:ramps_constants_steps"]}
{"id": "C15", "title": "is_initially_increasing answers about the first change", "statement": "is_initially_increasing(x): when the first two values differ, True exactly when the second is larger. (Known limit: when the first two values are equal and x changes later, the answer is always True, even for a decreasing line.)", "quantifier": "every x with at least two values and at least one change", "why_tests_cant": "any number of leading repeated values", "anchors": ["geotecha/piecewise/piecewise_linear_1d.py:is_initially_increasing"]}
{"id": "C16", "title": "Monotone parts cover the line in order", "statement": "non_increasing_and_non_decreasing_parts(x): the index lists returned are consecutive runs; concatenated (dropping the vertex shared by neighbours) they are 0..len(x)-1, and x is monotone along each.", "quantifier": "every x", "why_tests_cant": "all patterns of turning points", "anchors": ["geotecha/piecewise/piecewise_linear_1d.py:non_increasing_and_non_decreasing_parts"]}
{"id": "C17", "title": "Monotonicity predicates", "statement": "strictly_increasing, strictly_decreasing, non_increasing and non_decreasing return True exactly when every pair of consecutive points (equivalently any pair i<j) is in the stated order; has_steps is True exactly when two consecutive x are equal.", "quantifier": "every x", "why_tests_cant": "universal both ways", "anchors": ["geotecha/piecewise/piecewise_linear_1d.py:strictly_increasing", "geotecha/piecewise/piecewise_linear_1d.py:strictly_decreasing", "geotecha/piecewise/piecewise_linear_1d.py:non_increasing", "geotecha/piecewise/piecewise_linear_1d.py:non_decreasing", "geotecha/piecewise/piecewise_linear_1d.py:has_steps"]}
{"id": "C18", "title": "Graded meshes fill the height", "statement": "subdivide_into_elements(n, h, p, symmetry) returns n positive element heights that sum to h, successive elements growing by the ratio p (p mirrored about the middle when symmetry is on); n<=1, p<=0 ... are refused with ValueError.", "quantifier": "every n >= 2, h > 0, p > 0, symmetry on/off, odd and even n", "why_tests_cant": "closed geometric-series identity for unbounded n", "anchors": ["geotecha/piecewise/piecewise_linear_1d.py:subdivide_into_elements"]}
{"id": "C19", "title": "PolyLine arithmetic: results and effect on operands", "statement": "After any history of PolyLine operations: p*c, p/c, c/p, p+c, p-c, c-p (p a PolyLine with at least two points, c a number) return a new PolyLine with p's x and the obvious y. Constructing, reading attributes, multiplying, dividing, adding or subtracting PolyLines and comparing leave every existing PolyLine's points and layers unchanged. Known limit: p+c, p-c and c-p write the shifted y back into p itself (proved, with a refutation of the claim that p is left alone).", "quantifier": "every history of constructions, attribute reads and arithmetic, every PolyLine in it, every number", "why_tests_cant": "aliasing between views and caches depends on the history of accesses", "anchors": ["geotecha/piecewise/piecewise_linear_1d.py:PolyLine", "geotecha/piecewise/piecewise_linear_1d.py:PolyLine._add_substract"]}
{"id": "C20", "title": "PolyLine representations agree", "statement": "Whichever way a PolyLine is built (xy array; x and y; proper contiguous x1,x2,y1,y2) and in whichever order attributes are read, if no p+c, p-c, c-p happened then x/y and x1/x2/y1/y2 describe the same piecewise linear function. Known limit: after p's layers were read, p+c leaves p's layers stale (refutation proved).", "quantifier": "every history of constructions, lazy attribute reads and arithmetic other than shifting by a number", "why_tests_cant": "histories of lazy conversions", "anchors": ["geotecha/piecewise/piecewise_linear_1d.py:PolyLine"]}
{"id": "C21", "title": "PolyLine equality", "statement": "p == q is True exactly when both have the same number of points and every coordinate of p is within 1e-5 + 1e-8*|q's coordinate| of q's; in particular lines with equal points are equal. Known limit: the relation is not symmetric (refutation proved).", "quantifier": "all histories and pairs of PolyLines", "why_tests_cant": "tolerance makes the relation asymmetric only for special magnitudes", "anchors": ["geotecha/piecewise/piecewise_linear_1d.py:PolyLine.__eq__"]}
{"id": "C22", "title": "Superposition of loads is a sum", "statement": "pxa_ya_cos_multiply_integrate_..._super and the version without cosine return, in row i and column j, the sum over the loads k of a_k(xa_j) cos(omega_k xa_j + phase_k) times the integral of b_k c between xb_i and xb_j, for any number of loads (no (omega, phase): factor 1), whatever the abscissas of b_k and c (well separated), and raise ValueError on lists of different length. Known limit: one load with one bare (omega, phase) tuple is refused with ValueError.", "quantifier": "any number of loads, any lines, any evaluation points and intervals in range", "why_tests_cant": "unbounded list lengths and continuum of inputs", "anchors": ["geotecha/piecewise/piecewise_linear_1d.py:pxa_ya_cos_multiply_integrate_x1b_x2b_y1b_y2b_multiply_x1c_x2c_y1c_y2c_between_super", "geotecha/piecewise/piecewise_linear_1d.py:pxa_ya_multiply_integrate_x1b_x2b_y1b_y2b_multiply_x1c_x2c_y1c_y2c_between_super"]}
{"id": "C23", "title": "dim1sin_af_linear is the integral it claims", "statement": "dim1sin_af_linear: entry (i,j) equals the sum over layers of the integral from zt to zb of a(z) sin(m_i z) sin(m_j z) dz with a linear in each layer, diagonal and off-diagonal; the matrix is symmetric; the 'scalar' and 'vectorized' implementations return the same values.", "quantifier": "all layer counts and geometries (zt<zb), all a,b,.. end values, all non-zero m (distinct m_i^2 off the diagonal)", "why_tests_cant": "a generated closed form with many terms; agreement at test points does not settle the identity", "anchors": ["geotecha/speccon/integrals.py:dim1sin_af_linear"]}
{"id": "C24", "title": "dim1sin_D_aDf_linear is the integral it claims", "statement": "dim1sin_D_aDf_linear: entry (i,j) equals minus the sum over layers of the integral of a(z) m_i cos(m_i z) m_j cos(m_j z) dz; the matrix is symmetric; the 'scalar' and 'vectorized' implementations return the same values.", "quantifier": "all layer counts and geometries (zt<zb), all a,b,.. end values, all non-zero m (distinct m_i^2 off the diagonal)", "why_tests_cant": "a generated closed form with many terms; agreement at test points does not settle the identity", "anchors": ["geotecha/speccon/integrals.py:dim1sin_D_aDf_linear"]}
{"id": "C25", "title": "dim1sin_ab_linear is the integral it claims", "statement": "dim1sin_ab_linear: entry i equals the sum over layers of the integral of a(z) b(z) sin(m_i z) dz; the 'scalar' and 'vectorized' implementations return the same values.", "quantifier": "all layer counts and geometries (zt<zb), all a,b,.. end values, all non-zero m (distinct m_i^2 off the diagonal)", "why_tests_cant": "a generated closed form with many terms; agreement at test points does not settle the identity", "anchors": ["geotecha/speccon/integrals.py:dim1sin_ab_linear"]}
{"id": "C26", "title": "dim1sin_abc_linear is the integral it claims", "statement": "dim1sin_abc_linear: entry i equals the sum over layers of the integral of a(z) b(z) c(z) sin(m_i z) dz; the 'scalar' and 'vectorized' implementations return the same values.", "quantifier": "all layer counts and geometries (zt<zb), all a,b,.. end values, all non-zero m (distinct m_i^2 off the diagonal)", "why_tests_cant": "a generated closed form with many terms; agreement at test points does not settle the identity", "anchors": ["geotecha/speccon/integrals.py:dim1sin_abc_linear"]}
{"id": "C27", "title": "dim1sin_abf_linear is the integral it claims", "statement": "dim1sin_abf_linear: entry (i,j) equals the sum over layers of the integral of a(z) b(z) sin(m_i z) sin(m_j z) dz; the matrix is symmetric; the 'scalar' and 'vectorized' implementations return the same values.", "quantifier": "all layer counts and geometries (zt<zb), all a,b,.. end values, all non-zero m (distinct m_i^2 off the diagonal)", "why_tests_cant": "a generated closed form with many terms; agreement at test points does not settle the identity", "anchors": ["geotecha/speccon/integrals.py:dim1sin_abf_linear"]}
{"id": "C28", "title": "dim1sin_a_linear_between is the integral it claims", "statement": "dim1sin_a_linear_between: entry (k,i) equals the integral between the two depths z[k] of a(z) sin(m_i z) dz, wherever the two depths fall in the layers; and dim1sin_avg_between is the corresponding average of sin(m_i z); the 'scalar' and 'vectorized' implementations return the same values.", "quantifier": "all layer counts and geometries (zt<zb), all a,b,.. end values, all non-zero m (distinct m_i^2 off the diagonal)", "why_tests_cant": "a generated closed form with many terms; agreement at test points does not settle the identity", "anchors": ["geotecha/speccon/integrals.py:dim1sin_a_linear_between"]}
{"id": "C29", "title": "Eload_linear is the decaying time integral of the load", "statement": "Eload_linear(loadtim, loadmag, eigs, tvals, dT): entry (i,j) equals the integral from the first load time to min(t_i, last load time) (empty before the first) of load(tau) exp(-dT*eig_j*(t_i-tau)) d tau, for piecewise-linear loads with steps and no doubled points; scalar and vectorized implementations agree. (Known limit: a load table with the same point listed twice loses the following constant segment.)", "quantifier": "every non-decreasing loadtim, every loadmag, every t, every non-zero eig*dT", "why_tests_cant": "closed forms per segment kind plus index bookkeeping over all load histories", "anchors": ["geotecha/speccon/integrals.py:Eload_linear", "geotecha/piecewise/piecewise_linear_1d.py:segment_containing_also_segments_less_than_xi"]}
{"id": "C30", "title": "EDload_linear is the decaying time integral of the load rate", "statement": "EDload_linear: entry (i,j) equals the sum of step jumps times exp(-dT*eig_j*(t_i - t_step)) for steps at or before t_i plus the integral over ramps up to t_i of slope*exp(-dT*eig_j*(t_i-tau)); integration by parts links it to Eload_linear.", "quantifier": "every non-decreasing loadtim, every loadmag, every t, every non-zero eig*dT", "why_tests_cant": "closed forms plus bookkeeping over all load histories", "anchors": ["geotecha/speccon/integrals.py:EDload_linear"]}
{"id": "C31", "title": "Sine eigenvalues fit the drainage condition", "statement": "m_from_sin_mx(i, boundary) gives an m with sin(m)=0 for boundary 0 (drained bottom) and cos(m)=0 for boundary 1 (undrained bottom), strictly increasing and positive in i; any other boundary raises ValueError.", "quantifier": "every i >= 0", "why_tests_cant": "all i", "anchors": ["geotecha/speccon/integrals.py:m_from_sin_mx"]}
{"id": "C32", "title": "Terzaghi series solves the consolidation equation", "statement": "terzaghi_1d(z,t): for every number of terms the returned pore pressure satisfies du/dt = (kv/(mv*gamw)) d2u/dz2 at every z and t, is zero at the drained top z=0 and has zero gradient at the sealed base z=H; at t=0 its mean square deviation from ui is at most ui^2*2/(pi^2*nterms).", "quantifier": "all depths, times, parameters and term counts", "why_tests_cant": "a differential equation at every point, a limit in the number of terms", "anchors": ["geotecha/consolidation/terzahi.py:terzaghi_1d"]}
{"id": "C33", "title": "Terzaghi degree of consolidation is one minus the mean pore pressure", "statement": "terzaghi_1d: doc(t) = 1 - (1/(H*ui)) * integral over 0..H of the returned pore pressure, term count for term count, and terzaghi_1d_flowrate is (kv/gamw) du/dz of the same pore pressure.", "quantifier": "all parameters, times, depths and term counts", "why_tests_cant": "integral and derivative identities", "anchors": ["geotecha/consolidation/terzahi.py:terzaghi_1d", "geotecha/consolidation/terzahi.py:terzaghi_1d_flowrate"]}
{"id": "C34", "title": "Ideal drain and constant smear zone", "statement": "mu_ideal(n) and mu_constant(n, s, kap) equal the drain parameter (1/(n^2-1)) * integral from 1 to n of (n^2-x^2)^2/(n^2 x k(x)) dx of undisturbed soil and of soil with permeability 1/kap out to radius s; with no smear (s=1 or kap=1) mu_constant, mu_linear, mu_overlapping_linear and mu_parabolic equal mu_ideal and u_constant, u_linear, u_parabolic equal u_ideal; arguments out of range (n<=1, s<1, s>n, kap<=0) raise ValueError and no others do.", "quantifier": "all real n, s, kap (arrays of any length for mu_ideal), all radii, pressures and well resistances", "why_tests_cant": "an integral identity over a continuum of parameters", "anchors": ["geotecha/consolidation/smear_zones.py:mu_ideal", "geotecha/consolidation/smear_zones.py:mu_constant"]}
{"id": "C35", "title": "Piecewise constant smear zones", "statement": "mu_piecewise_constant(s, kap) with any number of zones of increasing radii equals the drain parameter integral of the step permeability profile, and raises ValueError exactly for unequal lengths, radii <= 1 or not increasing, or kap <= 0; one zone plus an undisturbed zone gives mu_constant; splitting any zone in two of the same permeability changes nothing; giving n (and kap_m) separately is appending them.", "quantifier": "all lists s, kap of any length", "why_tests_cant": "unbounded number of zones and real parameters", "anchors": ["geotecha/consolidation/smear_zones.py:mu_piecewise_constant"]}
{"id": "C36", "title": "Radial pore pressure profiles", "statement": "u_ideal, u_constant, u_linear, u_parabolic, u_piecewise_constant, u_piecewise_linear: the returned pressures are values of one profile u that is continuous from the drain wall to the outer edge, satisfies the radial flow equation k(x) u'(x) = c (1/x - x/n^2) for the model's permeability profile k away from the jumps of k, starts at uw + c*muw at the wall, and has area average uavg; radii outside [1, n] raise ValueError. (Smear parameters that np.isclose confuses with 1 or with each other without being equal are excluded; u_parabolic needs kap >= 1 and kap/(kap-1) != (s/(s-1))^2.)", "quantifier": "all n, s, kap (lists of any length for the piecewise models), all query radii, uavg, uw, muw >= 0", "why_tests_cant": "a differential equation and an integral condition at every radius", "anchors": ["geotecha/consolidation/smear_zones.py:u_ideal", "geotecha/consolidation/smear_zones.py:u_constant", "geotecha/consolidation/smear_zones.py:u_linear", "geotecha/consolidation/smear_zones.py:u_parabolic", "geotecha/consolidation/smear_zones.py:u_piecewise_constant", "geotecha/consolidation/smear_zones.py:u_piecewise_linear"]}
{"id": "C37", "title": "Well resistance averages", "statement": "mu_well_resistance(kh, qw, n, H) without depth equals the mean over depth 0..H of mu_well_resistance(kh, qw, n, H, z); it is 0 at the top, strictly increases with depth down to H, and n <= 1 raises ValueError.", "quantifier": "all kh, qw, n, H, z", "why_tests_cant": "integral over a continuum of depths", "anchors": ["geotecha/consolidation/smear_zones.py:mu_well_resistance"]}
{"id": "C38", "title": "Drain influence radius", "statement": "re_from_drain_spacing(sp, pattern): pi re^2 equals the area of the drain's cell (sqrt(3)/2 sp^2 for 'T...', sp^2 for 'S...', any case) to within 1e-14 sp^2; it is elementwise linear and positive, larger for square than triangular patterns; any other non-empty pattern or a spacing <= 0 raises ValueError.", "quantifier": "all spacings, arrays of any length, all pattern strings", "why_tests_cant": "all real spacings and all strings", "anchors": ["geotecha/consolidation/smear_zones.py:re_from_drain_spacing"]}
{"id": "C39", "title": "Void ratio / stress models invert each other", "statement": "AvSoilModel: stress_from_e and e_from_stress invert each other exactly. CcCrSoilModel (with and without a preconsolidation stress, above and below it): they invert each other up to a relative error of 2e-16 of the distance (in log stress, resp. void ratio) from the reference point - the accuracy of the 17-digit literal for ln 10 in the source; the curve has slope Cc per decade on the virgin line, Cr on unloading, and passes through (siga, ea).", "quantifier": "every stress, void ratio, preconsolidation stress and parameters with non-zero slopes", "why_tests_cant": "inverse over a continuum with case splits", "anchors": ["geotecha/constitutive_models/void_ratio_stress.py:AvSoilModel", "geotecha/constitutive_models/void_ratio_stress.py:CcCrSoilModel"]}
{"id": "C40", "title": "av_from_stress is the slope of the void ratio curve", "statement": "av_from_stress(s) = -d e_from_stress/ds exactly for AvSoilModel, and to a relative error 1e-16 (the source's literal for 1/ln 10) for CcCrSoilModel on both sides of the preconsolidation stress; at the corner it returns the virgin slope.", "quantifier": "every stress and parameters", "why_tests_cant": "derivative statement", "anchors": ["geotecha/constitutive_models/void_ratio_stress.py:AvSoilModel.av_from_stress", "geotecha/constitutive_models/void_ratio_stress.py:CcCrSoilModel.av_from_stress"]}
{"id": "C41", "title": "Void ratio / permeability models invert each other", "statement": "CkPermeabilityModel: e_from_k(k_from_e(e)) = e and k_from_e(e_from_k(k)) = k for k > 0, with Ck per decade through (ka, ea); ConstantPermeabilityModel.k_from_e always returns its constant. (Known defect: e_and_k_for_plotting of the constant model always raises ValueError.)", "quantifier": "every e, k and parameters with Ck != 0", "why_tests_cant": "inverse over a continuum", "anchors": ["geotecha/constitutive_models/void_ratio_permeability.py:CkPermeabilityModel", "geotecha/constitutive_models/void_ratio_permeability.py:ConstantPermeabilityModel"]}
{"id": "C42", "title": "Hansbo flow law: velocity and gradient invert each other", "statement": "HansboNonDarcianFlowModel with consistent parameters: v_from_i follows Hansbo's law (power law up to iL, straight line of slope klinear through i0 beyond), i_from_v(v_from_i(i)) = i and v_from_i(i_from_v(v)) = v for gradients and velocities of either sign; velocity is odd, strictly increasing, continuous and reduces to Darcy's law at n = 1; DarcyFlowModel inverts itself too.", "quantifier": "every i, v and every admissible (klinear/kstar, n, i0/iL)", "why_tests_cant": "inverse with case splits and real powers", "anchors": ["geotecha/constitutive_models/velocity_hydraulic_gradient.py:HansboNonDarcianFlowModel"]}
{"id": "C43", "title": "dv_di is the derivative of the velocity for positive gradients", "statement": "For every positive gradient DarcyFlowModel.dv_di(i) and HansboNonDarcianFlowModel.dv_di(i) equal d v_from_i/di, including at the limiting gradient; at i = 0 so does Hansbo's for n > 1. (Known defect, proved for all inputs: for every negative gradient the returned value is MINUS the derivative, and for linear laws it is 0 at i = 0.)", "quantifier": "every i", "why_tests_cant": "derivative statement for both signs", "anchors": ["geotecha/constitutive_models/velocity_hydraulic_gradient.py:DarcyFlowModel.dv_di", "geotecha/constitutive_models/velocity_hydraulic_gradient.py:HansboNonDarcianFlowModel.dv_di"]}
{"id": "C44", "title": "Polygon area is the true area, independent of starting vertex and position", "statement": "For any list of vertices whose area vector (half the sum of the cross products of consecutive vertices) has its algebraically largest component in x or z and nonzero, polygon_area returns the length of that vector, which for a plane polygon is the surface integral of 1 over it; an anticlockwise polygon in a horizontal plane gets its shoelace area; starting the list at another vertex or translating it never changes the result. (Known defects: a clockwise polygon in a horizontal plane divides by zero, and a polygon whose normal is largest in +y gets minus its area.)", "quantifier": "polygons with any number of vertices, in any plane", "why_tests_cant": "unbounded vertex count, all positions and orientations", "anchors": ["geotecha/mathematics/geometry.py:polygon_area", "geotecha/mathematics/geometry.py:eqn_of_plane"]}
{"id": "C45", "title": "eqn_of_plane goes through every vertex, with unit normal on the anticlockwise side", "statement": "For a plane polygon with nonzero area eqn_of_plane(pts) returns (n, d) with |n| = 1, n.p + d = 0 for every vertex p, n parallel to the area vector (pointing to the side from which the vertices run anticlockwise); reversing the vertices negates both n and d.", "quantifier": "any number of coplanar points", "why_tests_cant": "unbounded vertex count", "anchors": ["geotecha/mathematics/geometry.py:eqn_of_plane"]}
{"id": "C46", "title": "fixed_point_no_accel returns only converged points", "statement": "fixed_point_no_accel(func, x0, xtol, maxiter) for scalars: a returned value p is func(p0) of some iterate p0 reached by fewer than maxiter applications of func to x0, with relative change below xtol, and the first such one; if no iterate among the first maxiter qualifies, RuntimeError.", "quantifier": "every function, start, tolerance and iteration bound", "why_tests_cant": "arbitrary func", "anchors": ["geotecha/mathematics/root_finding.py:fixed_point_no_accel"]}
{"id": "C47", "title": "find_n_roots returns the first n roots or fails loudly", "statement": "find_n_roots(func, n=k, x0, dx, p): when it returns, it returns k values, the solver's answers for k successive sign-change intervals, each starting to the right of the previous root, with no sign change seen between; if p <= 1, the zeros are crossings more than dx apart and fsolve finds the zero of the interval it is started in, the result is exactly the first k zeros from x0 on, in increasing order. It fails only with ValueError (or the UnboundLocalError below). For continuous func and p^3 < 5 the search terminates if and only if no search for a root starts exactly at a zero; for one root with func(x0) != 0 it always terminates. (Known defects: starting exactly at a zero loops for ever whatever max_iter is; a first root within atol of 0 raises UnboundLocalError; the documented check for finding the same root twice is never made.)", "quantifier": "all functions, solvers, step sizes and numbers of roots", "why_tests_cant": "search of unbounded length over arbitrary functions; non-termination", "anchors": ["geotecha/mathematics/root_finding.py:find_n_roots"]}
{"id": "C48", "title": "Shanks acceleration is exact on geometric transients", "statement": "shanks(seq, ind) returns the limit L exactly for every sequence whose terms from ind on are L + a*q^k (q != 1 or a = 0) with at least three terms left, also for negative ind; with ind=None or fewer than three terms left it returns the last term; three terms give the Aitken formula, or the last term when its divisor vanishes; it is equivariant under change of units and origin; it fails only (IndexError) on an empty sequence. (Known defect: the caller's array is overwritten, so a second call on it answers differently.)", "quantifier": "every sequence, index, L, a, q, length", "why_tests_cant": "all lengths", "anchors": ["geotecha/mathematics/quadrature.py:shanks"]}
{"id": "C49", "title": "Input files can only use what is whitelisted", "statement": "The input-file syntax checker accepts a text exactly when every syntax element in it is of an allowed type, every call by name is of an allowed function, and every attribute and every name read is allowed or has been assigned to earlier in the text (a checker used again remembers the names of earlier texts); otherwise it raises SyntaxError. With any of the built-in whitelists no text with an import, class or exec statement, or calling eval, exec, open, __import__, getattr, globals and the like by name, is accepted. A text that does not parse or is refused is not executed at all; an accepted one is executed once, exactly as checked. (Known defects: assigning to a name puts it on the attribute whitelist, so 'system = 0; np.system' passes, and 'eval = eval; [eval].pop()(...)' passes; without a checker nothing is checked.)", "quantifier": "every program text (syntax tree), every combination of whitelists, every python version's subset of the listed words", "why_tests_cant": "all programs", "anchors": ["geotecha/inputoutput/inputoutput.py:SyntaxChecker", "geotecha/inputoutput/inputoutput.py:make_module_from_text"]}
{"id": "C50", "title": "Output file stems are fresh", "statement": "next_output_stem(prefix, path, start, inc, zfill): with start >= 0 and inc >= 1 the result is the prefix and the number one increment above the largest number following the prefix in any name of the folder (start if there is none), in decimal with at least zfill digits and no needless zeros; no name in the folder begins with it; over any history of runs that each leave a file under their stem, whatever else is created in between, no stem is given twice; with overwrite the number is the largest in use; a missing folder is a ValueError. (Known defects: with another zfill the overwrite stem is not an existing name; inc=0 gives a stem in use.)", "quantifier": "every directory listing and every history of runs (literal prefixes)", "why_tests_cant": "all directory contents and histories", "anchors": ["geotecha/inputoutput/inputoutput.py:next_output_stem"]}
{"id": "C51", "title": "The working directory is always restored", "statement": "with working_directory(path): body -- after the block the current directory is the one before it, also if the body raises or is interrupted, and the block ends as the body ended; the body runs exactly if path leads to a directory, in that directory, otherwise OSError is raised and nothing happens; nesting to any depth; if the body removes the original directory the block ends with OSError.", "quantifier": "every body behaviour, every path, every nesting depth", "why_tests_cant": "all crash points", "anchors": ["geotecha/inputoutput/inputoutput.py:working_directory"]}
{"id": "C52", "title": "Attribute consistency checks raise exactly when they should", "statement": "check_attribute_combinations, check_attribute_is_list, check_attribute_pairs_have_equal_length and check_attribute_PolyLines_have_same_x_limits succeed exactly when the documented consistency holds and raise otherwise (ValueError, or TypeError for a value without length); is_list(force_list=True) wraps exactly the listed attributes that are neither None nor a list; force_attribute_same_len_if_none changes an attribute only if it was None and belongs to a group whose first member is defined, to a list of the same length, and leaves none of those None. (Known defect: force_attribute_same_len_if_none raises ValueError when the first attribute is a numpy array with several elements.)", "quantifier": "every object state, attribute list and table", "why_tests_cant": "all combinations of defined / None / list / array values over unbounded tables", "anchors": ["geotecha/inputoutput/inputoutput.py:check_attribute_combinations", "geotecha/inputoutput/inputoutput.py:check_attribute_is_list", "geotecha/inputoutput/inputoutput.py:check_attribute_pairs_have_equal_length", "geotecha/inputoutput/inputoutput.py:check_attribute_PolyLines_have_same_x_limits", "geotecha/inputoutput/inputoutput.py:force_attribute_same_len_if_none"]}
{"id": "C53", "title": "Attribute copying", "statement": "copy_attributes_between_objects(from, to, attributes, defaults, not_found_value): afterwards each listed attribute of `to` is the one of `from`, or the default, or not_found_value, in that order; nothing else of `to` and no other object changes - also when from and to are the same object. initialize_objects_attributes sets exactly the listed attributes to the default or not_found_value.", "quantifier": "every pair of objects (aliased or not), list and defaults", "why_tests_cant": "all attribute sets and aliasing", "anchors": ["geotecha/inputoutput/inputoutput.py:copy_attributes_between_objects", "geotecha/inputoutput/inputoutput.py:initialize_objects_attributes"]}
{"id": "C54", "title": "Batch processing visits every input file", "statement": "The command-line driver runs the object for every selected file exactly once in order, in the file's own directory, methods in order up to the first failure, closing what it opens; a failing file is reported and does not stop the later ones; working directory and logger level are restored at the end. Inconsistent options, missing directories and empty selections are errors before anything is run; --directory/--pattern selects exactly the matching names. (Known defects: KeyboardInterrupt/SystemExit stops the batch and leaves the root logger at INFO; a directory given twice is processed twice.)", "quantifier": "every file list, every user code behaviour and failure pattern", "why_tests_cant": "all failure patterns", "anchors": ["geotecha/inputoutput/inputoutput.py:GenericInputFileArgParser"]}
{"id": "C55", "title": "Elapsed time strings", "statement": "hms_string(sec) for sec >= 0 has the form h:mm:ss.cc with mm below 60; it denotes the given duration to within half a hundredth of a second, and h and mm are the whole hours and minutes contained in it; ss is below 60 unless the remainder is at least 59.995 s. (Known defect: in that case the seconds are shown as 60.00.)", "quantifier": "every non-negative duration", "why_tests_cant": "all durations", "anchors": ["geotecha/inputoutput/inputoutput.py:hms_string"]}
{"id": "C56", "title": "Colour shades and tints stay valid colours", "statement": "rgb_shade(rgb, factor) and rgb_tint(rgb, factor, scaled): a valid colour gives a valid colour on the same scale with the same opacity, every component moved by the given fraction towards black / white; the extreme factors give the original colour or black / white; a factor outside [0,1] is a ValueError.", "quantifier": "every colour (3 or 4 components, either scale) and factor", "why_tests_cant": "continuum", "anchors": ["geotecha/plotting/one_d.py:rgb_shade", "geotecha/plotting/one_d.py:rgb_tint"]}
{"id": "C57", "title": "Reverse row-major order map", "statement": "row_major_order_reverse_map(shape, index_steps, transpose) with steps 1 or -1: entry k is the row-major place of the k-th index with the marked dimensions counted from the far end (places of the transposed grid if transpose); it is a permutation of the places, an involution when not transposed, and the identity by default. (Known defect: other steps are not refused when a dimension is cut to one entry; places are then repeated.)", "quantifier": "every grid shape of any dimension and every reversal", "why_tests_cant": "all shapes", "anchors": ["geotecha/plotting/one_d.py:row_major_order_reverse_map"]}
{"id": "C58", "title": "Grid data writing", "statement": "save_grid_data_to_file(data_dicts, ...): every dictionary with data and its own file name gets its table written to <dir>/<stem><name><ext> with its header, labels and options; no other file changes; missing directories are made. (Known defects: the caller's dictionaries lose the seven keys and their df_kwargs get index_label, so a second save writes nothing; two dictionaries with the same name overwrite each other.)", "quantifier": "every list of (possibly repeated) dictionaries, every file system", "why_tests_cant": "aliasing", "anchors": ["geotecha/inputoutput/inputoutput.py:save_grid_data_to_file", "geotecha/inputoutput/inputoutput.py:make_array_into_dataframe"]}
{"id": "C59", "title": "Nested transforms", "statement": "ntransform(func, transforms, transvars, args, opts) returns the value of the listed transforms nested in order - the first one innermost, over func's first argument - each with its own variable and options, whatever points the transforms evaluate, and the largest of all error estimates; it raises exactly when something in the nest raises, and when transvars and transforms differ in length. (Known defect: a single options dictionary for all transforms always raises TypeError.)", "quantifier": "every number of transforms, every transform behaviour (any adaptive sequence of evaluations)", "why_tests_cant": "unbounded nesting, adaptive evaluation", "anchors": ["geotecha/mathematics/multi_transform.py:ntransform", "geotecha/mathematics/multi_transform.py:_NTransform"]}
{"id": "C60", "title": "Reduced levels", "statement": "depth_to_reduced_level(z, H, rlzero): rlzero minus the depth z*H, hence rlzero at the surface and rlzero-H at the bottom, decreasing with depth, affine and invertible; the depth itself when rlzero is None.", "quantifier": "every z, H, rlzero", "why_tests_cant": "all values", "anchors": ["geotecha/mathematics/transformations.py:depth_to_reduced_level"]}
{"id": "C61", "title": "Subdividing a line keeps it", "statement": "subdivide_x_y_into_segments(x, y, dx, min_segments) (no log axes, just_before=None) keeps every original vertex, every returned point lies on a segment of the original line (same fraction along x and y), x and y stay paired, and a non-decreasing x stays non-decreasing.", "quantifier": "all lines x, y of equal non-zero length, all dx and all min_segments >= 1", "why_tests_cant": "ranges over all lines and subdivision sizes", "anchors": ["geotecha/piecewise/piecewise_linear_1d.py:subdivide_x_y_into_segments"]}
{"id": "C62", "title": "Layered functions: value, integral and average", "statement": "For contiguous layers (x1,x2,y1,y2): interp_x1_x2_y1_y2 returns the layer's straight line inside a layer, the nearest end value outside all layers, and on a boundary the lower layer's top value if choose_max, else the upper layer's bottom value; integrate_x1_x2_y1_y2_between_xi_xj is the Riemann integral of the described function (jumps at layer boundaries allowed) and avg_x1_x2_y1_y2_between_xi_xj times (xj-xi) equals it.", "quantifier": "all contiguous layer lists of positive thickness, all xi < xj inside the covered range", "why_tests_cant": "ranges over all layer lists and all real end points", "anchors": ["geotecha/piecewise/piecewise_linear_1d.py:interp_x1_x2_y1_y2", "geotecha/piecewise/piecewise_linear_1d.py:integrate_x1_x2_y1_y2_between_xi_xj", "geotecha/piecewise/piecewise_linear_1d.py:avg_x1_x2_y1_y2_between_xi_xj"]}
{"id": "C63", "title": "Layer coordinates contain the layer boundaries", "statement": "layer_coords(h, segs, min_segs) returns depths among which are 0, every cumulative layer thickness and the total thickness.", "quantifier": "all layer thickness lists, all segs, all min_segs >= 1", "why_tests_cant": "ranges over all layer lists", "anchors": ["geotecha/piecewise/piecewise_linear_1d.py:layer_coords"]}
{"id": "C64", "title": "dim1sin_DD_abDDf_linear is the integral it claims", "statement": "dim1sin_DD_abDDf_linear: entry (i,j) equals the sum over layers of the integral of a(z) b(z) (d2/dz2 sin(m_i z)) (d2/dz2 sin(m_j z)); 'scalar' and 'vectorized' implementations return the same matrix.", "quantifier": "every list of nonzero eigenvalues distinct up to sign, every stack of layers with any top/bottom values of both properties (jumps allowed), every entry, every implementation", "why_tests_cant": "The closed forms are machine-generated expressions of hundreds of terms; tests sample a few profiles to limited precision.", "anchors": ["geotecha/speccon/integrals.py:dim1sin_DD_abDDf_linear"]}
{"id": "C65", "title": "dim1sin_D_aDb_linear is the integral it claims", "statement": "dim1sin_D_aDb_linear with b linear over the whole profile: entry i equals the boundary term [sin(m_i z) a b'] minus the integral of a b' d/dz sin(m_i z); if a is continuous this is the integral of sin(m_i z) d/dz(a db/dz). 'scalar' and 'vectorized' return the same vector.", "quantifier": "every list of nonzero eigenvalues, every non-empty stack of layers, every slope of b, every a, every implementation", "why_tests_cant": "Ranges over all profiles; the boundary terms and the layer terms only combine correctly as an identity.", "anchors": ["geotecha/speccon/integrals.py:dim1sin_D_aDb_linear"]}
{"id": "C66", "title": "Sine modes are orthogonal", "statement": "With the eigenvalues given by m_from_sin_mx for one boundary condition and a property equal to 1 throughout, dim1sin_af_linear returns one half times the identity matrix, however the unit depth is split into layers.", "quantifier": "every number of eigenvalues, both boundary conditions, every layering of [0,1], every implementation", "why_tests_cant": "Exact identity over all layerings and mode counts; floating tests only see approximate zeros.", "anchors": ["geotecha/speccon/integrals.py:dim1sin_af_linear", "geotecha/speccon/integrals.py:m_from_sin_mx"]}
{"id": "C67", "title": "Eload_linear and EDload_linear are consistent", "statement": "For every load table, t and eigenvalue: EDload_linear + dT*eig*Eload_linear = load(t) - load(first)*exp(-dT*eig*(t-first)) for t in the load range (integration by parts).", "quantifier": "every non-decreasing loadtim without doubled points, every loadmag, every t in range, every non-zero eig*dT, every pair of implementations", "why_tests_cant": "identity between two functions over a continuum of load histories, times and eigenvalues", "anchors": ["geotecha/speccon/integrals.py:Eload_linear", "geotecha/speccon/integrals.py:EDload_linear"]}
{"id": "C68", "title": "Removing superfluous points stays within tolerance", "statement": "remove_superfluous_from_x_y keeps the first and last point and the order of the others; each point it drops is within atol of the straight line through the kept points either side of it, or those two kept points coincide to 1e-8.", "quantifier": "every line with at least two points, every atol >= 0", "why_tests_cant": "all lines", "anchors": ["geotecha/piecewise/piecewise_linear_1d.py:remove_superfluous_from_x_y"]}
{"id": "C69", "title": "polyline_make_x_common preserves the functions", "statement": "For two or more PolyLines monotone in x, whose abscissas coincide or are not within tolerance and whose steps are noticeable, polyline_make_x_common returns lines describing the same functions (constant beyond their ends), all with the same layers: the sorted union of all abscissas.", "quantifier": "any number of lines, any points, drawn left to right or right to left", "why_tests_cant": "unbounded numbers of lines and points", "anchors": ["geotecha/piecewise/piecewise_linear_1d.py:polyline_make_x_common"]}
{"id": "C70", "title": "Sum and difference of PolyLines", "statement": "p + q and p - q are a PolyLine describing the pointwise sum (difference) of the two lines (cleaned of superfluous points) on the union of their abscissas, constant extrapolation beyond either end.", "quantifier": "all pairs of lines monotone in x with well separated abscissas and noticeable steps", "why_tests_cant": "continuum of lines", "anchors": ["geotecha/piecewise/piecewise_linear_1d.py:PolyLine._add_substract"]}
{"id": "C71", "title": "Integral of a product of PolyLines", "statement": "pintegrate_x1a_x2a_y1a_y2a_multiply_x1b_x2b_y1b_y2b_between(a, b, xi, xj) is, for each pair, the integral from xi to xj of the product of the two piecewise linear functions.", "quantifier": "all pairs of monotone lines with well separated abscissas and noticeable steps, all xi < xj in their range", "why_tests_cant": "continuum of lines and limits", "anchors": ["geotecha/piecewise/piecewise_linear_1d.py:pintegrate_x1a_x2a_y1a_y2a_multiply_x1b_x2b_y1b_y2b_between"]}
{"id": "C72", "title": "Linear smear zone", "statement": "mu_linear(n, s, kap) (arrays): every element is within 2e-5*(mu+|kap-1|) of the drain parameter integral mu of the permeability that rises linearly from 1/kap at the wall to 1 at s, and equal to it unless np.isclose confuses s or kap with 1 or s with kap; ValueError is raised exactly when lengths differ or some n<=1, s<1, s>=n, kap<=0. k_linear returns that permeability profile.", "quantifier": "all arrays n, s, kap of any length; all radii", "why_tests_cant": "integral identity over a continuum; near-singular formula near the short cuts", "anchors": ["geotecha/consolidation/smear_zones.py:mu_linear", "geotecha/consolidation/smear_zones.py:k_linear"]}
{"id": "C73", "title": "Parabolic smear zone", "statement": "mu_parabolic(n, s, kap): for kap >= 1 with kap/(kap-1) != (s/(s-1))^2 the result is the drain parameter integral of the parabolic permeability profile (within 2e-5*(mu+|kap-1|), exactly unless np.isclose confuses s or kap with 1), ValueError exactly for arguments out of range; k_parabolic returns that profile. Known limit: for 0 < kap < 1, and when kap = s^2/(2s-1), nan is returned although the drain parameter exists.", "quantifier": "all n, s, kap, radii", "why_tests_cant": "integral identity; the singular curve has measure zero", "anchors": ["geotecha/consolidation/smear_zones.py:mu_parabolic", "geotecha/consolidation/smear_zones.py:k_parabolic"]}
{"id": "C74", "title": "Overlapping linear smear zones", "statement": "mu_overlapping_linear(n, s, kap): equals mu_linear for s < n; for n < s < 2n-1 it is the drain parameter (within 2e-5*(mu+|kap-1|)) of the profile that is linear out to 2n-s and constant beyond; for s >= 2n-1 that of uniformly disturbed soil; k_overlapping_linear returns these profiles. Known limit: exactly at s = n, mu_overlapping_linear (and u_linear) raises ValueError.", "quantifier": "all n, s, kap", "why_tests_cant": "integral identity over three regimes; the failing case is a single point", "anchors": ["geotecha/consolidation/smear_zones.py:mu_overlapping_linear", "geotecha/consolidation/smear_zones.py:k_overlapping_linear"]}
{"id": "C75", "title": "Piecewise linear permeability around a drain", "statement": "mu_piecewise_linear(s, kap) with nodes starting at 1, never decreasing (repeated radius = jump) and any number of them equals the drain parameter integral of the piecewise linear permeability 1/kap; it raises ValueError exactly for unequal lengths, a radius below 1, kap <= 0, decreasing radii or a first radius not 1 (np.isclose); one linear zone gives mu_linear's value.", "quantifier": "all node lists of any length", "why_tests_cant": "unbounded number of nodes and real parameters", "anchors": ["geotecha/consolidation/smear_zones.py:mu_piecewise_linear"]}
{"id": "C76", "title": "More resistance means slower consolidation", "statement": "mu_constant, mu_linear and mu_piecewise_constant are positive and never decrease when the permeability ratio of a zone grows (mu_constant also when the damaged zone widens); drain_eta is positive, strictly decreases with mu+muw, is quartered when re doubles, and passes on errors; u_piecewise_* treat a separately given n as appended.", "quantifier": "all parameters, zone lists of any length", "why_tests_cant": "an inequality between all pairs of inputs", "anchors": ["geotecha/consolidation/smear_zones.py:drain_eta", "geotecha/consolidation/smear_zones.py:mu_constant", "geotecha/consolidation/smear_zones.py:mu_linear", "geotecha/consolidation/smear_zones.py:mu_piecewise_constant"]}
{"id": "C77", "title": "Degree of consolidation is between 0 and 1, grows with time, and the series converges", "statement": "terzaghi_1d: for t >= 0 and at least one term, 0 <= doc(t) < 1, doc strictly increases with t, doc(0) <= 2/(pi^2*nterms); using more terms lowers doc by at most 2/(pi^2*n) at any time.", "quantifier": "all positive parameters, all times, all term counts", "why_tests_cant": "needs the value of an infinite series and all term counts", "anchors": ["geotecha/consolidation/terzahi.py:terzaghi_1d"]}
{"id": "C78", "title": "Piecewise soil model: void ratio and stress invert each other on the given curve", "statement": "PwiseLinearSoilModel with strictly monotone points (any combination of log axes): inside the given range e_from_stress and stress_from_e invert each other exactly; without preconsolidation the (plotted) point lies on the polyline through the given points; with a preconsolidation stress inside the range and Cr flatter than every segment they invert each other on the unloading line too.", "quantifier": "all point lists, log options, stresses, void ratios, preconsolidation stresses", "why_tests_cant": "inverse over a continuum for every polyline", "anchors": ["geotecha/constitutive_models/void_ratio_stress.py:PwiseLinearSoilModel"]}
{"id": "C79", "title": "Piecewise soil model: av_from_stress is the local slope", "statement": "PwiseLinearSoilModel.av_from_stress is -d e_from_stress/ds (to 2e-16 relative) at every stress strictly above the first and up to the last given stress that is not itself a given point or the preconsolidation stress. (Known defects: at the first given stress it returns the slope of the chord between the last and the first point; beyond the last it raises IndexError.)", "quantifier": "all point lists, log options, stresses, preconsolidation stresses", "why_tests_cant": "derivative statement over a continuum", "anchors": ["geotecha/constitutive_models/void_ratio_stress.py:PwiseLinearSoilModel.av_from_stress"]}
{"id": "C80", "title": "Piecewise permeability model inverts itself", "statement": "PwiseLinearPermeabilityModel with strictly monotone points (either direction on either axis, any log option): k_from_e and e_from_k invert each other exactly inside the given range, and the plotted point lies on the polyline through the given points.", "quantifier": "all point lists and log options, all k, e in range", "why_tests_cant": "inverse over a continuum for every polyline", "anchors": ["geotecha/constitutive_models/void_ratio_permeability.py:PwiseLinearPermeabilityModel"]}
{"id": "C81", "title": "Hansbo model: any three parameters determine the same model", "statement": "HansboNonDarcianFlowModel.__init__ accepts exactly three of klinear, kstar, n, i0, iL including at least one permeability (TypeError otherwise); the seven closed-form combinations all give the same consistent model; any accepted closed-form combination is consistent; where the exponent is found by iteration it is consistent to the iteration's relative tolerance 1e-8; degenerate parameters reduce to Darcy's law. (Known defect: kstar, n, iL with n = 1 or iL = 0 raises AttributeError.)", "quantifier": "all parameter values and combinations", "why_tests_cant": "ten combinations over a continuum, including an iterative solver", "anchors": ["geotecha/constitutive_models/velocity_hydraulic_gradient.py:HansboNonDarcianFlowModel.__init__"]}
{"id": "C82", "title": "polygon_centroid is the first moment divided by the area", "statement": "Whenever polygon_area of a plane polygon is its area A > 0, polygon_centroid returns c such that each coordinate of c that is not constant over the polygon because the normal is parallel to it, times A, is the surface integral of that coordinate over the polygon; for an anticlockwise polygon in the plane z = 0 all three are right. (Known defects: the coordinate along an axis-parallel normal is returned as 0 whatever the level of the plane; polygons facing +y get the mirrored centroid.)", "quantifier": "plane polygons with any number of vertices, convex or not", "why_tests_cant": "unbounded vertex count, all shapes", "anchors": ["geotecha/mathematics/geometry.py:polygon_centroid"]}
{"id": "C83", "title": "polygon_2nd_moment_of_area integrates the squared distance from the centroid", "statement": "Whenever polygon_area of a plane polygon is its area A > 0, polygon_2nd_moment_of_area returns, for each coordinate X, the number m such that m A is the surface integral of (X - c)^2 where c A is the surface integral of X (i.e. the second moment about the centroid divided by the area).", "quantifier": "plane polygons with any number of vertices", "why_tests_cant": "unbounded vertex count, all shapes", "anchors": ["geotecha/mathematics/geometry.py:polygon_2nd_moment_of_area"]}
{"id": "C84", "title": "polyhedron_volume is the volume enclosed by the faces", "statement": "For a closed surface of plane faces (every directed edge occurs as often as its reverse) polyhedron_volume is the sum over the faces of the signed volumes of the pyramids from any point o; a tetrahedron gets its determinant / 6; translating the polyhedron does not change the volume; cutting along a face, the two parts add up; reversing the orientation of all faces changes only the sign.", "quantifier": "any number of plane faces with any number of vertices each", "why_tests_cant": "unbounded number of faces and vertices", "anchors": ["geotecha/mathematics/geometry.py:polyhedron_volume"]}
{"id": "C85", "title": "make_hexahedron gives a closed, outward oriented surface", "statement": "make_hexahedron(coords) returns six faces of four corners, each corner in three of them, forming a closed surface (every edge once in each direction) whatever the corners are; for the parallelepiped with edges u, v, w from corner o, in the documented node order, polyhedron_volume of the result is u.(v x w); fewer than eight corners raise IndexError.", "quantifier": "all eight-corner inputs", "why_tests_cant": "all coordinates", "anchors": ["geotecha/mathematics/geometry.py:make_hexahedron", "geotecha/mathematics/geometry.py:polyhedron_volume"]}
{"id": "C86", "title": "Fixed point iteration returns the first converged iterate", "statement": "fixed_point_no_accel(func, x0, xtol, maxiter) returns func's (k+1)-st iterate for the first k < maxiter whose relative change (componentwise for arrays) is below xtol and raises RuntimeError if there is none; for a contraction with constant L the returned value is within L/(1-L)*xtol*|p0| of the fixed point, and if the fixed point is not zero it is reached for every tolerance given enough iterations. (Known defect: iterations tending to zero never pass the relative test.)", "quantifier": "all functions, starting values, tolerances and iteration limits", "why_tests_cant": "all functions, unbounded iteration", "anchors": ["geotecha/mathematics/root_finding.py:fixed_point_no_accel"]}
{"id": "C87", "title": "The epsilon table is Wynn's and can be extended", "statement": "shanks_table(seq) raises ValueError exactly for fewer than two terms; otherwise its rows form a lower triangle with an even number of rows obeying Wynn's epsilon rule, whose second column is the Shanks transform; on L + a*q^k the last entry is exactly L; extending the table of a prefix gives the table of the whole sequence. (Known defect: a two term sequence gives an empty table, so there is no [-1][-1] entry.)", "quantifier": "every sequence and prefix", "why_tests_cant": "all sequences, unbounded length", "anchors": ["geotecha/mathematics/quadrature.py:shanks_table"]}
{"id": "C88", "title": "Gauss-Legendre quadrature", "statement": "gl_quad(f, a, b, n) accepts exactly n = 2..20, 32, 64, 100; integrates every polynomial of degree < 2n over every interval (error <= 1e-24 |b-a|/2 times the polynomial's coefficient bound, from the 25-digit tables); for any integrable f its error is at most (2+1e-24)(b-a) times the distance of f from such polynomials; it is linear, sign-preserving, reverses sign with the limits, looks at f strictly inside the interval only, treats arrays of limits row by row with broadcasting, and with sum_intervals over consecutive break points gives the whole integral.", "quantifier": "every integrand, interval, order, array of limits", "why_tests_cant": "all integrands and intervals", "anchors": ["geotecha/mathematics/quadrature.py:gl_quad", "geotecha/mathematics/quadrature.py:gauss_legendre_abscissae_and_weights"]}
{"id": "C89", "title": "Gauss-Kronrod quadrature", "statement": "gk_quad(f, a, b, n) accepts exactly n = 7, 10, 15, 20, 25, 30; integrates every polynomial of degree <= 3n+1 over every interval to 1e-24 relative to its coefficient bound; its error estimate is never negative, vanishes (to that accuracy) for degree < 2n and equals the difference from the n point Gauss-Legendre value; near-best approximation, evaluation strictly inside, arrays and sum_intervals as for gl_quad.", "quantifier": "every integrand, interval, order, array of limits", "why_tests_cant": "all integrands and intervals", "anchors": ["geotecha/mathematics/quadrature.py:gk_quad", "geotecha/mathematics/quadrature.py:gauss_kronrod_abscissae_and_weights"]}
{"id": "C90", "title": "Objects built from an input text", "statement": "Constructing an InputFileLoaderCheckerSaver subclass from an input text gives every class attribute and every common attribute the value from the text, else the class default, else the common default, else None, and touches nothing else; without text the defaults; if the text fails to execute no object results and its exception is passed on.", "quantifier": "every class attribute list, defaults and text outcome", "why_tests_cant": "all texts and default tables", "anchors": ["geotecha/inputoutput/inputoutput.py:InputFileLoaderCheckerSaver"]}
{"id": "C91", "title": "What a successful input check guarantees", "statement": "check_input_attributes of Speccon1dVR, Speccon1dVRC, Speccon1dVRW, Speccon1dUnsat, SchiffmanAndStein1970 and NogamiAndLi2003 with the tables of their _setup: if it succeeds, the combination rules hold, list attributes are None or lists, companions of defined attributes are defined, PolyLine x limits agree and paired attributes have equal lengths; the only changes are wrapping single values into lists and filling missing companions with lists of None; checking again changes nothing; the members of every load (distribution, magnitude, cyclic part) are all None or all lists of one length, so no load is silently dropped by zip.", "quantifier": "every object state for the six classes", "why_tests_cant": "all combinations of inputs", "anchors": ["geotecha/inputoutput/inputoutput.py:InputFileLoaderCheckerSaver.check_input_attributes", "geotecha/speccon/speccon1d_vr.py:Speccon1dVR._setup", "geotecha/speccon/speccon1d_vrc.py:Speccon1dVRC._setup", "geotecha/speccon/speccon1d_vrw.py:Speccon1dVRW._setup", "geotecha/speccon/speccon1d_unsat.py:Speccon1dUnsat._setup", "geotecha/consolidation/schiffmanandstein1970.py:SchiffmanAndStein1970._setup", "geotecha/consolidation/nogamiandli2003.py:NogamiAndLi2003._setup"]}
{"id": "C92", "title": "Saving results never destroys earlier results", "statement": "An object without overwrite=True that saves data and figures, any number of times in any order: every file and directory that existed before its first saving is still there and unchanged. Every figure of a list is stored under its label, or its number if it has none, unless a later figure has the same file name. (Known defect: a single figure that is not in a list raises TypeError.)", "quantifier": "every file system, every sequence of savings", "why_tests_cant": "all directory contents and histories", "anchors": ["geotecha/inputoutput/inputoutput.py:InputFileLoaderCheckerSaver._determine_output_stem", "geotecha/inputoutput/inputoutput.py:InputFileLoaderCheckerSaver._save_data", "geotecha/inputoutput/inputoutput.py:InputFileLoaderCheckerSaver._save_figures"]}
{"id": "C93", "title": "Eload_coslinear is the decaying time integral of the modulated load", "statement": "Eload_coslinear(loadtim, loadmag, omega, phase, eigs, tvals, dT): entry (i,j) equals the integral from the first load time to min(t_i, last load time) of load(tau) cos(omega tau + phase) exp(-dT eig_j (t_i - tau)) d tau, for piecewise-linear loads with steps and no doubled points; the 'scalar' and 'vectorized' implementations return the same values.", "quantifier": "all load tables, omega, phase, real eigenvalues with dT*eig nonzero, all output times, both implementations", "why_tests_cant": "Holds for every load table, frequency, phase, eigenvalue and time; unit tests compare a handful of numbers.", "anchors": ["geotecha/speccon/integrals.py: Eload_coslinear (3101-4323)"]}
{"id": "C94", "title": "EDload_coslinear is the decaying time integral of the modulated load's rate", "statement": "EDload_coslinear: entry (i,j) equals the sum over the steps at or before t_i of jump * cos(omega t_s + phase) * exp(-dT eig_j (t_i - t_s)) plus the integral of d/dtau[load(tau) cos(omega tau + phase)] exp(-dT eig_j (t_i - tau)) between the steps, up to min(t_i, last load time); 'scalar' and 'vectorized' agree.", "quantifier": "all load tables, omega, phase, real eigenvalues with dT*eig nonzero, all output times, both implementations", "why_tests_cant": "Holds for every load table, frequency, phase, eigenvalue and time; unit tests compare a handful of numbers.", "anchors": ["geotecha/speccon/integrals.py: EDload_coslinear (4326-5566)"]}
{"id": "C95", "title": "Eload_sinlinear is the decaying time integral of the sine-modulated load", "statement": "Eload_sinlinear: entry (i,j) equals the integral from the first load time to min(t_i, last load time) of load(tau) sin(omega tau + phase) exp(-dT eig_j (t_i - tau)) d tau (real eigenvalues); 'scalar' and 'vectorized' agree.", "quantifier": "all load tables, omega, phase, real eigenvalues with dT*eig nonzero, all output times, both implementations", "why_tests_cant": "Holds for every load table, frequency, phase, eigenvalue and time; unit tests compare a handful of numbers.", "anchors": ["geotecha/speccon/integrals.py: Eload_sinlinear (5569-6695)"]}
{"id": "C96", "title": "Modulated load integrals are mutually consistent", "statement": "For t inside the load table: EDload_coslinear + dT*eig*Eload_coslinear = load(t) cos(omega t + phase) - load(first) cos(omega first + phase) exp(-dT*eig*(t - first)); and with omega = phase = 0 Eload_coslinear and EDload_coslinear return what Eload_linear and EDload_linear return.", "quantifier": "all load tables, omega, phase, eigenvalues, times", "why_tests_cant": "Holds for every load table, frequency, phase, eigenvalue and time; unit tests compare a handful of numbers.", "anchors": ["geotecha/speccon/integrals.py: Eload_coslinear", "geotecha/speccon/integrals.py: EDload_coslinear", "geotecha/speccon/integrals.py: Eload_linear", "geotecha/speccon/integrals.py: EDload_linear"]}
{"id": "C97", "title": "Spectral matrices over raw property profiles", "statement": "Called with PolyLines that describe depth profiles with different breakpoints (no common table needed), pdim1sin_af_linear, pdim1sin_D_aDf_linear, pdim1sin_abf_linear, pdim1sin_DD_abDDf_linear and the pdim1sin_ab_/abc_/D_aDb_linear vectors and the PolyLine integral between depths return exactly the integrals over the depth range of the product of the described profiles (with their jumps) with the sine basis functions, and for D_aDb (second profile one straight line) that integral by parts with its end terms.", "quantifier": "all numbers of modes, all depth profiles (any number and position of breakpoints and jumps, consecutive distinct depths noticeably apart)", "why_tests_cant": "Holds for every pair or triple of profiles with unrelated breakpoints; unit tests compare a few fixed tables.", "anchors": ["geotecha/speccon/integrals.py: pdim1sin_af_linear", "geotecha/speccon/integrals.py: pdim1sin_abf_linear", "geotecha/speccon/integrals.py: pdim1sin_D_aDf_linear", "geotecha/speccon/integrals.py: pdim1sin_DD_abDDf_linear", "geotecha/speccon/integrals.py: pdim1sin_abc_linear", "geotecha/piecewise/piecewise_linear_1d.py: polyline_make_x_common"]}
{"id": "C98", "title": "Load integrals solve the modal equations", "statement": "The numbers pEload_linear/pEload_coslinear return for eigenvalue lam and time t are the values e(lam,t) of a function of time that solves e' + dT*lam*e = load(t)*modulation(t) with e = 0 at the start (in integrated form: e(t) + dT*lam*integral of e = integral of the load), and those of pEDload_linear/pEDload_coslinear solve e' + dT*lam*e = d(load*modulation)/dt, jumps included (e(t) + dT*lam*integral of e = load(t) - initial load), for every time before the end of the load table. (Known defect: after the last tabulated time pEload_* treats the load as removed, while interpolation keeps it.)", "quantifier": "all load tables (ramps, jumps, constant parts), modulations, dT, eigenvalues with dT*eig <> 0, time lists, implementations", "why_tests_cant": "An equation over all times, for every load table, eigenvalue and modulation; a unit test compares a few values.", "anchors": ["geotecha/speccon/integrals.py: pEload_linear", "geotecha/speccon/integrals.py: pEload_coslinear", "geotecha/speccon/integrals.py: pEDload_linear", "geotecha/speccon/integrals.py: pEDload_coslinear"]}
{"id": "C99", "title": "Pressures, averages and integrals reported by the spectral program come from one pressure field", "statement": "Given the table of mode coefficients, speccon1d.dim1sin_f, dim1sin_avgf and dim1sin_integrate_af return, for every depth, depth pair, time and set of (possibly cosine-modulated) top and bottom boundary pressures: the value at the depth, the mean over the depth pair (times its thickness the integral), and the integral of a depth profile times it, all of the same field u(z,t) = sum of coefficient*sin(m z) + top(t)*(1-z, or 1 for an undrained bottom) + bottom(t)*z, as long as the time lies inside the load tables. (Known defect: if fewer modulations than loads are given the remaining loads are dropped without notice.)", "quantifier": "all mode lists, coefficient tables, time lists, depth lists, profiles, load tables and modulations", "why_tests_cant": "agreement of three differently coded sums/interpolations/integrals with one field over all profiles, loads and depths", "anchors": ["geotecha/speccon/speccon1d.py: dim1sin_f, dim1sin_avgf, dim1sin_integrate_af", "geotecha/piecewise/piecewise_linear_1d.py: pinterp_xa_ya_multipy_x1b_x2b_y1b_y2b, pxa_ya_multipy_avg_x1b_x2b_y1b_y2b_between, pxa_ya_multiply_integrate_x1b_x2b_y1b_y2b_multiply_x1c_x2c_y1c_y2c_between_super"]}
{"id": "C100", "title": "Speccon1dVR solves the consolidation equation (Galerkin weak form) with all its loads", "statement": "For every problem (layered mv, kv, kh, et profiles, surcharges, vacuum, top and bottom pressures, fixed-pressure points, pumps, each with optional cosine modulation, pervious or impervious bottom) and any number neig >= 1 of modes, if numpy.linalg.inv/eig return correct results and no eigenvalue is zero, then there is one pressure field u(z,t) = sum of sine modes + boundary terms such that (1) for every mode and every time t from the start until the first load table ends, the change of stored strain mv*(u - surcharge) since the start plus the accumulated outflow (vertical Darcy flow, flow to drains towards the vacuum, flow to the fixed points, less the pumped inflow), tested with the mode, is zero up to the matrix entries below 1e-8 that the program replaces by zero (exactly zero when there are none), and (2) for every list of output times and depths the ppress, avg_ppress and settlement outputs are u, its averages, and H*mvref times the integral of mv*(surcharge - u), at those times and depths.", "quantifier": "all problems with valid load tables and depth profiles, all numbers of modes, all output times/depths/intervals/index lists, all implementations of the integrals, all correct inv/eig", "why_tests_cant": "Tests compare a few problems with published solutions to a few digits; that every combination of loads, boundary conditions and layers satisfies the governing equation mode by mode at every time needs a proof about symbolic integrals and the eigenvalue decomposition.", "anchors": ["/repo/geotecha/speccon/speccon1d_vr.py: Speccon1dVR.make_all, make_time_independent_arrays, make_time_dependent_arrays, make_output, _make_gam, _make_psi, _make_eigs_and_v, _make_BC, _make_set", "/repo/geotecha/speccon/speccon1d.py: dim1sin_E_Igamv_the_*, dim1sin_f, dim1sin_avgf, dim1sin_integrate_af"]}
{"id": "C101", "title": "Speccon1dVRW solves the coupled soil and drain equations", "statement": "For every problem with well resistance (layered mv, kv in the soil; kh, et for the exchange with the drain; kw in the drain; surcharges, top and bottom pressures, fixed-pressure points, pumps) and any number neig >= 1 of modes, if numpy.linalg.inv/eig return correct results and no eigenvalue is zero, there are a soil pressure field and a drain pressure field such that (1) for every mode, what flows along the drain (kw) is what came from the soil (kh*et*(u - w)), (2) for every mode and every time from the start until the first load table ends, the change of stored strain plus the accumulated outflow (vertical flow, exchange with the drain, fixed points, less pumped inflow) is zero up to the matrix entries below 1e-8 that the program drops, (3) the reported pore pressure, average pore pressure and settlement are those of the soil field, and (4) the reported drain pressure (porwell) is the drain field at times without a jump of a boundary load, provided dT = 1 and there is no gradient at an undrained bottom of a layer of height other than 1. (Known defect: in general porwell differs by (1/H - 1)*bottom gradient term, because line 1097 passes the raw bot_vs_time, and by (dT - 1) times the drain's response to the boundary loads, because line 1109 does not divide by dT.)", "quantifier": "all problems with valid load tables and depth profiles, all numbers of modes, all output times/depths/index lists, all implementations of the integrals, all correct inv/eig", "why_tests_cant": "Tests use a few simple problems with dT = 1 and mostly no bottom gradient; that the elimination of the drain unknowns is right for every load combination at every time needs a proof.", "anchors": ["/repo/geotecha/speccon/speccon1d_vrw.py: Speccon1dVRW.make_all, make_time_independent_arrays, _make_psi, _make_eigs_and_v, _make_BC, _make_porwell, _make_por, _make_avp, _make_set", "/repo/geotecha/speccon/speccon1d.py: dim1sin_foft_Ipsiw_the_BC_D_aDf_linear"]}
{"id": "C102", "title": "Speccon1dVRC solves the equations of soil with a stone column", "statement": "For every stone-column problem (layered mv; kv, kh, et in the soil; kvc, khc in the column; the ratio n of the radii; surcharges, top and bottom loads) and any number neig >= 1 of modes, if numpy.linalg.inv/eig return correct results, no eigenvalue is zero, and the boundary loads cause no flow in the column by themselves (no boundary loads, or dTvc = 0, or kvc constant over the depth), there are four pressure fields (average, soil, column, interface) such that (1) the average is the area-weighted mean of soil and column, (2) for every mode and time, soil and column lose the same volume (vertical plus radial flow) and what leaves the soil radially enters the column, (3) for every mode and every time from the start until the first load table ends, the change of stored strain plus the accumulated loss is zero up to the matrix entries below 1e-8 that the program drops, (4) the reported pore pressure, its depth averages and the settlement are those of the average field at all times, and (5) with dT = 1 (or no boundary loads), the reported pressures in the soil and in the column (pors, porc, avps, avpc) are those of the soil and column fields at times without a jump of a boundary load. (Known defect: when a boundary load drives flow in a column with varying kvc, the program adds the column's flux term where it must be subtracted, so the reported pressures do not satisfy the equations; and these outputs lack a division by dT.)", "quantifier": "all problems with valid load tables and depth profiles, all numbers of modes, all output times/depths/index lists, all implementations of the integrals, all correct inv/eig", "why_tests_cant": "Tests compare a few published curves without boundary loads on layered columns; that the 3 x 3 block elimination is right for all combinations of loads and profiles at all times needs a proof (and fails for varying kvc).", "anchors": ["/repo/geotecha/speccon/speccon1d_vrc.py: Speccon1dVRC.make_time_independent_arrays, _make_psi, _make_BC, _make_E_Igamv_the, _make_por, _make_avp, _make_set"]}
{"id": "C103", "title": "The Fredlund-Xing soil water characteristic curve is smooth, falling and complete", "statement": "For positive a, n, m, ws, psir, w_from_psi of SWCC_FredlundAndXing1994 is the documented formula, dw_dpsi is its derivative at every positive suction and is negative, the water content falls strictly with suction, and with the computed correction it is ws at suction 0, 0 at 10^6 and strictly between in between.", "quantifier": "all parameter values, all suctions, computed or given correction factor", "why_tests_cant": "Tests compare dw_dpsi with a finite difference at a few suctions; that the hand-differentiated formula is the derivative everywhere needs a proof.", "anchors": ["/repo/geotecha/constitutive_models/swcc.py: SWCC_FredlundAndXing1994.w_from_psi, dw_dpsi"]}
{"id": "C104", "title": "The Pham-Fredlund soil water characteristic curve is smooth, falling and complete", "statement": "For positive a, b, psir and non-negative wr, s1, w_from_psi of SWCC_PhamAndFredlund2008 is the documented formula, dw_dpsi is its derivative at every positive suction, and as long as ws - s1 log10(psi) exceeds wr the derivative is negative and the water content falls strictly; with the computed correction it is 0 at 10^6. When psir is not given it satisfies psir^b = 2.7 a.", "quantifier": "all parameter values, all positive suctions, computed or given correction factor", "why_tests_cant": "Tests compare dw_dpsi with a finite difference at a few suctions.", "anchors": ["/repo/geotecha/constitutive_models/swcc.py: SWCC_PhamAndFredlund2008.__init__, w_from_psi, dw_dpsi"]}
{"id": "C105", "title": "k_from_psi is the documented ratio of integrals over the curve", "statement": "For a falling curve and an air entry suction below 10^6, k_from_psi is never negative, is 0 at 10^6, is exactly 1 (Pham-Fredlund) or below 1 (Fredlund-Xing) at the air entry suction, does not change when ws is scaled (Fredlund-Xing), and as npts grows it converges to the documented ratio of integrals, which lies in [0, 1] from the air entry suction on and never rises with suction.", "quantifier": "all fitted parameters, all suctions up to 10^6, all air entry suctions, all numbers of intervals", "why_tests_cant": "Tests check single values with npts = 500; sign, range, monotonicity and convergence hold for every suction and every npts only by proof.", "anchors": ["/repo/geotecha/constitutive_models/swcc.py: SWCC_FredlundAndXing1994.k_from_psi, SWCC_PhamAndFredlund2008.k_from_psi"]}
{"id": "C106", "title": "kwrel_from_discrete_swcc gives a relative permeability inside the curve", "statement": "For a curve of at least three points with positive increasing suctions and water contents that never rise and end below that of the second point, and for a suction from the first point up to (excluding) the last, the result is the ratio of the sums over the remaining and over all segments of (change of water) * (mean water - mean water of the suction's segment) / (product of the end suctions); it lies in [0, 1], never rises with suction, is 1 in the first segment and 0 in the last. From the last suction on an IndexError is raised. (Known defect: below the first suction the index wraps round to the last segment, and the result is zero or negative instead of 1 or an error.)", "quantifier": "all curves, all suctions", "why_tests_cant": "A test checks a few suctions of one curve inside the range.", "anchors": ["/repo/geotecha/constitutive_models/swcc.py: kwrel_from_discrete_swcc"]}
{"id": "C107", "title": "Relative air permeability falls from 1 when dry to 0 when saturated", "statement": "For every qfit > 0, karel_air_from_saturation is (1-Sr)^(1/2) (1-Sr^(1/qfit))^(2 qfit), is 1 at Sr = 0 and 0 at Sr = 1, falls strictly in between and lies in [0, 1].", "quantifier": "all saturations in [0, 1], all positive qfit", "why_tests_cant": "Monotonicity over a continuum of saturations and exponents.", "anchors": ["/repo/geotecha/constitutive_models/swcc.py: karel_air_from_saturation"]}
{"id": "C108", "title": "The unsaturated spectral program conserves water and air", "statement": "For every layered unsaturated soil, every surcharge and every set of water and air pressures prescribed at the top and bottom that does not give all four boundaries a load, there is one water pressure field and one air pressure field such that, tested with every mode, (1) the water gained from the start to t plus the water that flowed out is zero, and likewise for air including its compression n(1-S)/ua, up to storage-matrix entries below 1e-8; (2) porw/pora and avpw/avpa are the values and averages of these fields at the requested depths and times; (3) the total settlement is H mvref times the integral of the water and air strains. (Known defects: when all four boundary loads are given the program ignores all of them and the balance fails; the split setw/seta misplaces H mvref times the integral of m2a uw, the exact misplacement is stated.)", "quantifier": "all problems (profiles, loads with modulation, drainage, number of modes), all inverses/eigendecompositions returned by numpy, all output times before the load tables end, all depths and depth pairs", "why_tests_cant": "Continuum of depths, times, loads and layerings; tests compare with a few published curves.", "anchors": ["/repo/geotecha/speccon/speccon1d_unsat.py: Speccon1dUnsat", "/repo/geotecha/speccon/speccon1d.py: dim1sin_E_Igamv_the_* with theta_zero_indexes"]}
{"id": "C109", "title": "Large-strain pressure and void ratio solve the large-strain problem", "statement": "For every meaningful XieAndLeo2004 input, with sealed or drained base, u and e are tables of a pressure field and a void-ratio field such that 1+e = (1+e0)exp(-mvl(qu-u)); the upward Darcy flow with permeability kv0((1+e)/(1+e0))^2 in deformed coordinates and the pore volume e/(1+e0) satisfy conservation of water at every depth and time; u is zero at every drained boundary, the flow is zero at a sealed base, and u is never negative; at time 0 the mean square strain is at most (1-exp(-mvl qu))^2 2/(pi^2 nterms); as t grows u tends to 0 and e to efinal. Up is one minus the mean pressure over qu, whenever quad integrates.", "quantifier": "all positive H, kv0, mvl, gamw, all qu >= 0, qp, Hw, Gs, e00 with positive 1+e0 in the layer, all numbers of terms, all lists of depths and times", "why_tests_cant": "A nonlinear partial differential equation must hold at a continuum of points for every input.", "anchors": ["/repo/geotecha/consolidation/xieandleo2004.py: XieAndLeo2004.u_PTIB, u_PTPB, e_PTIB, e_PTPB, Up_PTIB, Up_PTPB"]}
{"id": "C110", "title": "Large-strain settlement is the integral of the strain", "statement": "For both drainage conditions settlement(a,t) is the integral from a to H of (e0-e)/(1+e0); settlement_final is that integral with efinal and is the limit of the surface settlement; Us times settlement_final is the surface settlement, lies in [0,1), increases strictly with time and starts below 2/(pi^2 nterms); xi is a + settlement, equals H at the base and has derivative (1+e)/(1+e0).", "quantifier": "all meaningful inputs, all depths and times", "why_tests_cant": "Integrals, derivatives and limits over all depths and times.", "anchors": ["/repo/geotecha/consolidation/xieandleo2004.py: settlement_PTIB, settlement_PTPB, settlement_final, Us_PTIB, Us_PTPB, xi_PTIB, xi_PTPB"]}
{"id": "C111", "title": "Initial and final states of the large-strain layer are in equilibrium", "statement": "initial_effective_stress is qp at the top and increases with depth by the buoyant weight gamw(Gs-1)/(1+e0); e0 is the void ratio the compression law with constant mvl gives for that stress, and efinal the one for that stress plus qu.", "quantifier": "all positive mvl, all e00 > -1 and every depth where 1+e0 is positive", "why_tests_cant": "A differential relation at every depth for every input.", "anchors": ["/repo/geotecha/consolidation/xieandleo2004.py: e0, efinal, initial_effective_stress"]}
{"id": "C112", "title": "Velocities of soil and water obey kinematics and Darcy's law", "statement": "The velocity of the solids is the time derivative of the settlement. With a sealed base the reported water velocity (positive upwards) is the one Darcy's law gives relative to the moving solids. With a drained base it is so (positive downwards) after subtracting vs/(2e). (Known defect: vw_PTPB uses half the solid velocity, so for every loaded layer with a drained base the reported water velocity violates Darcy's law at the surface.)", "quantifier": "all meaningful inputs, all depths and times with e not 0", "why_tests_cant": "Relates derivatives of several outputs at a continuum of points.", "anchors": ["/repo/geotecha/consolidation/xieandleo2004.py: vs_PTIB, vs_PTPB, vw_PTIB, vw_PTPB"]}
{"id": "C113", "title": "Total pore pressure adds the static head at the deformed position", "statement": "total_pore_pressure(a,t) = u(a,t) + gamw (Hw + xi(a,t)). (Known defect: effective_stress_* and total_stress_* use an undefined name and raise NameError for every input.)", "quantifier": "all meaningful inputs, all depths and times", "why_tests_cant": "All inputs; the raising methods have no test.", "anchors": ["/repo/geotecha/consolidation/xieandleo2004.py: total_pore_pressure_PTIB, total_pore_pressure_PTPB, effective_stress_PTIB, effective_stress_PTPB, total_stress_PTIB, total_stress_PTPB"]}
{"id": "C114", "title": "The time found for a degree of consolidation is within 2.4 %", "statement": "For every time tau, t_from_Us applied to Us(tau) returns a time t: with the time factor of tau between 1e-4 and 10, |t - tau| <= 0.024 tau; below or above, t has the time factor 1e-4 or 10.", "quantifier": "all meaningful inputs with at least one term, all lists of times", "why_tests_cant": "An error bound over a continuum of targets and all inputs.", "anchors": ["/repo/geotecha/consolidation/xieandleo2004.py: t_from_Us_PTIB, t_from_Us_PTPB"]}
{"id": "C115", "title": "Deng 2013: the pressure decays at the rate set by the well resistance above the point", "statement": "For meaningful inputs with A1 > 0, 0 <= A2 <= A1, A3 >= 0, dengetal2013(z, t) returns at every depth reached by the drain the pore pressure u with u(z,0) = ui and du/dt = -(2 ch / (re^2 mu(z,t))) u, where mu(z,t) is the smear resistance mu0 of the annulus plus the integral of the drain resistance at time t, with a drain capacity varying as (A1 - A2 z/H) exp(-A3 t). Inputs with A1 < 0, A2 > A1 or A3 < 0 raise ValueError. (Known defect: A2 < 0 is accepted and returns None; z = 0 with A3 > 0, and z = H with A1 = A2, give nan.)", "quantifier": "all meaningful inputs, all depths with positive capacity and all times", "why_tests_cant": "An equation that must hold at a continuum of depths, times and parameters.", "anchors": ["/repo/geotecha/consolidation/dengetal2013and2014.py: dengetal2013"]}
{"id": "C116", "title": "Deng 2014: soil and drain pressures satisfy the coupled equations", "statement": "For A3 > 0, dengetal2014(z, t) returns a soil pressure u for which there is a drain pressure w with du/dt = -(2 ch/(re^2 mu0)) (u - w), drain flow balance with capacity decaying as exp(-A3 t), w = 0 at the top and no flow at the base; at t = 0 u misses the uniform initial pressure by at most ui^2 * 2/(pi^2 nterms) in mean square. (Known defect: with A3 = 0, the default, the result does not depend on time, so it solves no such system.)", "quantifier": "all meaningful inputs, any number of terms, all depths and times", "why_tests_cant": "A differential system over a continuum with a truncated series.", "anchors": ["/repo/geotecha/consolidation/dengetal2013and2014.py: dengetal2014"]}
{"id": "C117", "title": "Layered soil: pore pressures solve the layered consolidation problem under the whole load history", "statement": "When SchiffmanAndStein1970.make_all returns, the pore pressure at every asked depth in the profile and every asked time is the superposition, over the whole surcharge history (ramps and steps up to that time), of one response to a unit load. That response obeys mv du/dt = kv d2u/dz2 in every layer; every one of its n terms decays, vanishes (drained) or has no slope (impervious) at the top and has continuous pressure and flow between layers, exactly unless the program rounded a nonzero coefficient below 1e-10 to zero and within 1e-10 of its size otherwise; each decay is cv of the first layer times the square of an answer of the root solver for a sign change found going up from 0.1/H^2.", "quantifier": "all soils with positive properties and any number of layers, all loads, all depths and times, all numbers of terms, any linear solver that returns only unique solutions and any root solver with positive answers", "why_tests_cant": "Differential equations and interface conditions over a continuum, for any number of layers and any load history.", "anchors": ["/repo/geotecha/consolidation/schiffmanandstein1970.py: SchiffmanAndStein1970.make_output, _make_BC, _find_beta, _calc_Bm_and_Cm, _calc_Am, _calc_Tm, calc_por"]}
{"id": "C118", "title": "Layered soil: the roots are the decays of the soil and the series is the best approximation", "statement": "The equation whose roots SchiffmanAndStein1970 looks for holds at b exactly when cv0 b^2 is a decay of the layered soil: some nonzero shape satisfies the layer equation, the top, interface and bottom conditions. If the root solver returns roots of it and no nonzero coefficient is rounded to zero, then every term of the series also meets the bottom condition, shapes of different decay are orthogonal (weight mv) over the depth, and for distinct roots the response at the moment of loading is, among all combinations of the shapes, closest to the uniform unit pressure in the mv-weighted mean square.", "quantifier": "all layered soils, all boundary conditions 0/1, all root lists, all competing combinations", "why_tests_cant": "An equivalence for every positive b and a minimum over all combinations of any number of shapes.", "anchors": ["/repo/geotecha/consolidation/schiffmanandstein1970.py: _characteristic_eqn, _make_BC, _calc_Bm_and_Cm, _calc_Am"]}
{"id": "C119", "title": "Layered soil: average pore pressure and settlement are integrals of the same pore pressure", "statement": "avp times the total depth is the integral over the profile of the pore pressure field at that time, and set is the integral over the profile of mv times (load minus pore pressure), for the same series that gives por. The load is the surcharge interpolated at the time. (Known defect: at the time of an interior step the load taken is the one before the step while the pore pressure includes the step; before the first load time the first load value is taken.)", "quantifier": "all layered soils, loads and times", "why_tests_cant": "Integrals over a continuum for any number of layers, terms and load segments.", "anchors": ["/repo/geotecha/consolidation/schiffmanandstein1970.py: calc_settle_and_avp, _calc_Tm"]}
{"id": "C120", "title": "Layered soil: rejected inputs and written tables", "statement": "h, kv, mv of different lengths raise ValueError; only bctop, bcbot in {0, 1} can return a result; depths below the profile never give a result; the tables of pore pressure and average pore pressure written to file hold the attributes. (Known defects: the settlement table holds the average pore pressures; bctop or bcbot = 3, a partly draining boundary, raises NameError; another bctop raises AttributeError; a single layer with impervious top never returns because its system is singular.)", "quantifier": "all inputs, all runs", "why_tests_cant": "Claims about every input, including those never to be accepted.", "anchors": ["/repo/geotecha/consolidation/schiffmanandstein1970.py: make_output, _calc_derived_properties, calc_por, _calc_Bm_and_Cm"]}
{"id": "C121", "title": "Vertical drain with well resistance: pore pressures", "statement": "For sound properties and drn 0 or 1 tangandonitsuka2000 returns, and por at each depth and time is the superposition, over steps and ramps of the surcharge history, of one response to a unit load: with the pressure in the drain it obeys vertical flow plus exchange with the drain, with the mu of a uniform smear zone, and continuity of flow along the drain; it is zero at drained ends and has no gradient at a closed bottom; at the moment of loading its mean square misfit from the unit load is at most 2/(pi^2 nterms). tpor defaults to t. (Known defect: with drn = 0 and depths given as an array of integers, mirrored depths are truncated.)", "quantifier": "all sound properties, loads, depths, times and numbers of terms", "why_tests_cant": "A field satisfying two coupled differential equations everywhere, for every load history.", "anchors": ["/repo/geotecha/consolidation/tangandonitsuka2000.py: tangandonitsuka2000, _calc_Tm, F_func"]}
{"id": "C122", "title": "Vertical drain with well resistance: average pore pressure and settlement", "statement": "avp is the mean over the depth of the same pore pressures, and settle is the integral over the depth of mv times (load minus pore pressure).", "quantifier": "all sound properties, loads and times", "why_tests_cant": "Integrals over a continuum for any number of terms and load segments.", "anchors": ["/repo/geotecha/consolidation/tangandonitsuka2000.py: tangandonitsuka2000"]}
{"id": "C123", "title": "Compressible column: pore pressures in soil, column and overall", "statement": "For sound properties with kvc different from kv, luetal2010 returns tables of three pressure fields: the overall one is the mean by area of those in soil and column; with equal strain in soil and column they obey the stress sharing, the continuity of the water squeezed out, and the exchange between soil and column with the mu of the smear zone and the radial resistance of the column; all are zero at the top and have no gradient at the bottom; at t = 0 the overall field is the linear profile from utop to ubot with mean square misfit at most 4/(pi^2 nterms) (utop^2 + (ubot-utop)^2). (Known defect: kvc = kv, the default, raises ZeroDivisionError.)", "quantifier": "all sound properties, depths, times and numbers of terms", "why_tests_cant": "Three fields satisfying coupled differential equations everywhere.", "anchors": ["/repo/geotecha/consolidation/luetal2010.py: luetal2010"]}
{"id": "C124", "title": "Compressible column: average pore pressure and settlement", "statement": "avp is the mean over the depth of the overall pore pressure; settle is the integral over the depth of the common strain of soil and column that makes their skeletons carry the dissipated pressure.", "quantifier": "all sound properties with kvc different from kv, all times", "why_tests_cant": "Integrals over a continuum for any number of terms.", "anchors": ["/repo/geotecha/consolidation/luetal2010.py: luetal2010"]}
{"id": "C125", "title": "Talbot inversion is the midpoint rule on its contour, linear and scale covariant", "statement": "For n >= 1 and nonzero times, calling a Talbot object gives at each time the real part of the midpoint rule, with an even number of points n or n+1 none of which meets a singularity of the contour, for 1/(2 pi i) times the integral of e^(st) F(s) along the contour, using the true derivative of the contour. For transforms of real functions the imaginary part is exactly zero. The result is linear in F; F(s/c)/c gives the value at c t; a shift a is the same as inverting F(s+a) and multiplying by e^(at). A zero time raises ValueError; one time gives a number, several an array; vectorized or not, and in mp_laplace, the values are the same (in exact arithmetic).", "quantifier": "all transforms, numbers of points, shifts and times", "why_tests_cant": "Quantifies over all transforms and all even numbers of points (points never hit a zero of sine or cosine).", "anchors": ["/repo/geotecha/mathematics/laplace.py: Talbot, cot, csc", "/repo/geotecha/mathematics/mp_laplace.py: Talbot"]}
{"id": "C126", "title": "Anomalous diffusion: waves and degree of consolidation", "statement": "For nonzero times cosenzaandkorosak2014 returns pore pressures that are sums of waves vanishing at z = 0 and z = L and symmetric about mid depth, whose multipliers are Talbot inversions of the transform of the function that starts at 1 and obeys the fractional decay equation with rate (2k+1) pi; ui (1 - doc) is twice the mean over the depth of the pore pressure; time zero raises ValueError. (Known defects: the rate should be ((2k+1) pi)^2 kv/(L^2 mv gamw): kv, mv and gamw have no effect; tpor has no effect; the pore pressures are half of what doc implies.)", "quantifier": "all inputs with nonzero times, all numbers of terms", "why_tests_cant": "Integral over a continuum and transforms on a contour, for every list of fractional orders.", "anchors": ["/repo/geotecha/consolidation/cosenzaandkorosak2014.py: cosenzaandkorosak2014"]}
{"id": "C127", "title": "Layer with permeability and compressibility varying with depth: pore pressures", "statement": "For a layer with kv = kv0 (1+alpha z/H)^p and mv = mv0 (1+alpha z/H)^q, zhuandyin2012 returns pore pressures that are the values of a sum of decaying terms obeying mv du/dt = d/dz(kv/gamw du/dz) with u = 0 at the top; if the numbers eta found by the root search are exact zeros, the bottom is drained (drn=0) or closed (drn=1), the initial values are the best approximation, weighted with mv, of the uniform pressure ui by the shapes, and the zeros are exactly the rates of decay of the layer.", "quantifier": "all depths, times, numbers of terms, and all alpha <> 0 with 1+alpha > 0, p, q with p-q <> 2", "why_tests_cant": "A partial differential equation and optimality among all amplitudes, for a family of Bessel functions of real order.", "anchors": ["/repo/geotecha/consolidation/zhuandyin2012.py: zhuandyin2012", "/repo/geotecha/mathematics/root_finding.py: find_n_roots"]}
{"id": "C128", "title": "Layer with properties varying with depth: settlement and degree of consolidation", "statement": "The settlement returned by zhuandyin2012 is the integral over the depth of mv times (ui - pore pressure), for the same pore pressure as por, and doc is its share of the final settlement; doc lies between 0 and 1, never decreases with time and tends to 1. p - q = 2, q = -1, no terms, or drn other than 0 and 1 raise an error; alpha = 0 with drn = 0 never returns.", "quantifier": "all times, numbers of terms and admissible alpha, p, q; not for (1-p)/(2-p+q) negative and closer to zero than 1e-8", "why_tests_cant": "Integrals over a continuum and monotonicity over all pairs of times, for every pair of real exponents.", "anchors": ["/repo/geotecha/consolidation/zhuandyin2012.py: zhuandyin2012"]}
{"id": "C129", "title": "Unsaturated layer: the pressures solve the coupled water-air problem", "statement": "shanetal2012 returns, at every depth and time asked for, pore water and pore air pressures that satisfy the two coupled conservation equations (uw_t + Cw ua_t + Cvw uw_zz = Csw q', Ca uw_t + ua_t + Cva ua_zz = Csa q') with the surcharge history given, take exactly the prescribed histories at the top and the bottom (pressure for drn=0, slope of the pressure for drn=1), and start from the given linear initial pressures. The only approximation is that linear depth profiles (the uniform surcharge, the initial pressures, the profile of the prescribed end values) are replaced by their best approximation with nterms sine waves: the misfit is orthogonal to the waves and its mean square is at most 12 H (a^2+b^2)/(pi^2 nterms). Load dictionaries without a type, of another type or without their parameters are rejected, and so is Ca*Cw = 1. (Known defects: an exponential load whose b equals a rate of decay of one of the waves divides by zero; a float or list for z or t raises although documented; the documentation gives the load as q0 exp(-bt) but it is q0 (1-exp(-bt)), and calls f3/f4 pressures also for drn=1 where they are slopes.)", "quantifier": "all depths and times, all coefficients with real distinct eigenvalues (or uncoupled phases), both drainage conditions, all initial pressures, all combinations of exponential and sinusoidal loads that are not resonant, any number of terms", "why_tests_cant": "the tests compare a few published values at a few depths; they cannot show that the equations hold at every depth and time for every coefficient and load", "anchors": ["geotecha/consolidation/shanetal2012.py:shanetal2012"]}
{"id": "C130", "title": "Unsaturated layer: pressures end at what is prescribed", "statement": "For a layer that drains (Cvw < 0, Cva < 0, 0 <= Ca*Cw < 1), with every load absent or exponential with b > 0, the pressures that shanetal2012 returns tend, as time grows, to the profile of the final values prescribed at the ends (linear between top and bottom for drn=0; top value plus slope times depth for drn=1); the surcharge and the initial pressures leave no trace, and without loads the pressures die away.", "quantifier": "all depths, coefficients, loads, initial pressures and numbers of terms", "why_tests_cant": "a limit in time", "anchors": ["geotecha/consolidation/shanetal2012.py:shanetal2012"]}
{"id": "C131", "title": "Unsaturated layer: any eigenvectors will do", "statement": "The result of shanetal2012 does not depend on which eigenvectors the linear algebra library returns, nor on the order of the eigenvalues and the scale of the vectors: two libraries that both return a correct eigendecomposition lead to the same pressures.", "quantifier": "all correct eigensolvers, all coefficients, loads, depths and times", "why_tests_cant": "a test runs with one library", "anchors": ["geotecha/consolidation/shanetal2012.py:shanetal2012"]}
{"id": "C132", "title": "Layers around a drain: pore pressures", "statement": "With a drain, the pore pressures that nogami and li reports (at the radius asked for, or averaged over radius) are the response of the load history to a series with one term for each pair of wavenumber and decay found by the two searches; each term solves the equation of flow down and towards the drain in every layer, is drained at the drain and joined in pressure and flow at the interfaces, and meets the top condition. If the solver returned zeros, each term also meets the outer and the bottom condition, the terms are orthogonal, and at the moment of loading the series is the best approximation of a uniform pressure. The two equations solved have exactly the wavenumbers and decays of the ground as solutions, except where a shape would be straight within a layer. (Known defect: there the equation solved may have a zero that belongs to nothing, see C135.)", "quantifier": "all layers, drains, loads, depths, times, radii, boundary conditions and numbers of terms", "why_tests_cant": "a partial differential equation and an optimum over all coefficients", "anchors": ["geotecha/consolidation/nogamiandli2003.py:NogamiAndLi2003"]}
{"id": "C133", "title": "Layers around a drain: average pressure and settlement", "statement": "With a drain, avp is the mean over depth of the same pore pressures (at rcalc or averaged over radius), and set is the integral over depth of mv times the load less that pore pressure.", "quantifier": "all layers, drains, loads, times and numbers of terms", "why_tests_cant": "integrals over depth and radius of a function of continuous variables", "anchors": ["geotecha/consolidation/nogamiandli2003.py:NogamiAndLi2003"]}
{"id": "C134", "title": "Layers without a drain", "statement": "Without a drain nogami and li computes vertical consolidation of the layers: one wavenumber 0, a term for each zero found, each solving the vertical flow equation with the top and interface conditions and the best-approximation amplitude; pressures, averages and settlements are those of that series under the load; the equation solved has exactly the decays of the soil as solutions.", "quantifier": "all layers, loads, depths, times and numbers of terms", "why_tests_cant": "eigenvalues of a boundary value problem for all inputs", "anchors": ["geotecha/consolidation/nogamiandli2003.py:NogamiAndLi2003"]}
{"id": "C135", "title": "Layers around a drain: what is rejected and what is written", "statement": "Layer data of different lengths, and asking for no output, are rejected; a run that returns had conditions 0 or 1 at top and bottom and no depth below the last layer; the tables hold the pore pressures and average pore pressures of the attributes. (Known defects: the table named settlement repeats the average pore pressures; where a shape would be straight within a layer the equation solved has a zero though the ground has no such term.)", "quantifier": "all inputs", "why_tests_cant": "a statement about every run and every rejected input", "anchors": ["geotecha/consolidation/nogamiandli2003.py:NogamiAndLi2003"]}
{"id": "C136", "title": "Yin and Graham soil: initial conditions", "statement": "Exactly two of initial void ratio, stress, preconsolidation stress and equivalent time (or none) may be given, any other number is a ValueError; the four values of the object then are the given ones and describe one state of the soil (by unloading from, and by creep from, the reference time line), and any two of the four values of a state give back the other two. Without dt the void ratio is that of the model without creep; an object without initial conditions gives stresses on the reference time line.", "quantifier": "all soils with lam > kap > 0, psi, siga, ta > 0, all choices of given values", "why_tests_cant": "six formulas over reals that must agree for all parameters", "anchors": ["geotecha/constitutive_models/void_ratio_stress.py:YinAndGrahamSoilModel.initial_conditions", "geotecha/constitutive_models/void_ratio_stress.py:YinAndGrahamSoilModel.__init__"]}
{"id": "C137", "title": "Yin and Graham soil: any history follows the creep law", "statement": "For a new object and any sequence of increments given by stress and time or by void ratio and time, in which the stress changes in every increment, the stresses and void ratios returned are those of a soil whose void ratio follows the differential equation of instant compression and creep while the stress changes linearly in time; there is only one such sequence of void ratios; resetting makes the object new. (Known defects: at constant stress the elapsed time is ignored; giving a stress without dt keeps the accumulated creep.)", "quantifier": "all soils, all initial conditions, all sequences of increments of any length, any exact fixed point solver", "why_tests_cant": "unbounded histories and a differential equation over the reals", "anchors": ["geotecha/constitutive_models/void_ratio_stress.py:YinAndGrahamSoilModel.e_from_stress", "geotecha/constitutive_models/void_ratio_stress.py:YinAndGrahamSoilModel.stress_from_e", "geotecha/constitutive_models/void_ratio_stress.py:YinAndGrahamSoilModel._calc_igral", "geotecha/constitutive_models/void_ratio_stress.py:YinAndGrahamSoilModel.igral_and_estress_reset"]}
{"id": "C138", "title": "Yin and Graham soil: stress from void ratio inverts void ratio from stress", "statement": "After any history the two functions invert each other and leave the object in the same state; however inexact the solver, the object is left at exactly the void ratio asked for and the stress returned; more stress or more time gives a smaller void ratio.", "quantifier": "all soils, all histories, all increments that change the stress", "why_tests_cant": "an implicit equation over the reals after an unbounded history", "anchors": ["geotecha/constitutive_models/void_ratio_stress.py:YinAndGrahamSoilModel.stress_from_e", "geotecha/constitutive_models/void_ratio_stress.py:YinAndGrahamSoilModel.e_from_stress"]}
{"id": "C139", "title": "Yin and Graham soil: constant rate of stress and of strain", "statement": "A simulation on a new object starts at the initial stress and void ratio, changes the stress (or void ratio) at the reported interpolated rates over the reported times, and every increment follows the creep law; at a constant rate the stress is linear in time and method='odeint' with exact integration gives the same simulation when the times start at 0; a constant rate of strain with method='odeint' gives the stress at which the law has that rate; after a simulation the accumulated creep is put back. (Known defects: a second simulation starts from the last stress of the first one; with method='odeint' and times not starting at 0 the stress never changes; for a varying rate the two methods give different stresses.)", "quantifier": "all soils, all lists of times and rates, all subdivisions", "why_tests_cant": "simulations of any length over real numbers, against a differential equation", "anchors": ["geotecha/constitutive_models/void_ratio_stress.py:YinAndGrahamSoilModel.CRSS", "geotecha/constitutive_models/void_ratio_stress.py:YinAndGrahamSoilModel.CRSN", "geotecha/piecewise/piecewise_linear_1d.py:subdivide_x_into_segments"]}
{"id": "C140", "title": "Yin and Graham soil: the future depends on stress and void ratio only", "statement": "Two objects, even with different initial conditions and histories, that have come to the same stress and void ratio return the same void ratio for the same increment of stress and the same stress for the same increment of void ratio.", "quantifier": "all soils, all pairs of histories, all increments that change the stress", "why_tests_cant": "pairs of unbounded histories", "anchors": ["geotecha/constitutive_models/void_ratio_stress.py:YinAndGrahamSoilModel"]}
{"id": "C141", "title": "Yin and Graham soil: compressibility", "statement": "After any history the compressibility for a positive rate of stress is minus the rate of change of the void ratio by the creep law divided by the rate of stress; without a rate it is that of instant compression. (Known defect: for a falling stress the creep has the wrong sign.)", "quantifier": "all soils, all histories, all rates", "why_tests_cant": "real formulas after unbounded histories", "anchors": ["geotecha/constitutive_models/void_ratio_stress.py:YinAndGrahamSoilModel.av_from_stress"]}
{"id": "C142", "title": "FourierTransform is the Fourier integral", "statement": "For a function declared real (with parity flags true of it), declared imaginary and even or odd, or complex (with no imag_part_even or real_part_odd flag), a FourierTransform object called at s returns the integral of f(x) exp(-i s x) over a < |x| < b, or with inv=True that of f(x) exp(i s x) / (2 pi); for a = 0 and finite b that is the integral over (-b, b). (Known defects: declared imaginary without a parity flag the real part has the wrong sign; a complex function with imag_part_even or real_part_odd set raises TypeError.)", "quantifier": "all functions integrable against sin and cos, all s, all limits finite or infinite, forward and inverse, given exact quad", "why_tests_cant": "integrals of arbitrary functions; a few transform pairs do not reach all branches", "anchors": ["geotecha/mathematics/fourier.py:FourierTransform"]}
{"id": "C143", "title": "vcosine_transform and v2dcosine_transform", "statement": "Without shanks_ind, vcosine_transform returns for each s, independently of the others, the integral of f(x) cos(s x) from 0 to the m-th zero of cos(s x), off by no more than the quadrature over panels between zeros can be; the two dimensional transform is the transform in y inside the transform in x, so it is the product of transforms for a product. With shanks_ind, values whose partial sums settle geometrically from there on are their limits. (Known defect: with shanks_ind the value for one s depends on what other s are asked for in the same call.)", "quantifier": "all functions, all positive s, all m, all allowed orders", "why_tests_cant": "error bounds over all functions", "anchors": ["geotecha/mathematics/fourier.py:vcosine_transform", "geotecha/mathematics/fourier.py:v2dcosine_transform"]}
{"id": "C144", "title": "Hankel transforms integrate between zeros and given points", "statement": "A HankelTransform called at s with 0 <= a < b uses break points that rise from a to the smaller of b and the last zero of the kernel held, and between these are exactly the zeros and the given points; the value without extrapolation is the integral of f(r) r Jn(s r) over that range within quadrature error and the error estimate is not negative; with extrapolation it is the first panel plus the limit of geometrically settling partial sums. vhankel_transform is the same from 0 to the last zero. (Known defects: a finite b beyond the last zero held is silently cut to it; a lower limit beyond it is an IndexError.)", "quantifier": "all functions, all s > 0, all limits, all lists of rising zeros and points, all allowed orders", "why_tests_cant": "error bounds over all functions; arbitrary lists of points", "anchors": ["geotecha/mathematics/hankel.py:HankelTransform", "geotecha/mathematics/hankel.py:vhankel_transform"]}
{"id": "C145", "title": "DingEtAl2012: the simply supported beam satisfies the beam equation in the sense of Galerkin", "statement": "For a simply supported beam given by physical quantities (E, I, rho, A, L, k1, k3, mu, Fz, v), if the coefficients follow the differential equations the object hands to odeint in normalised time, the deflection L*w(x/L), put back into physical units, satisfies E I w'''' + rho A w_tt + mu w_t + k1 w + k3 w^3 = Fz delta(x - v t) tested with every one of the nterms mode shapes and integrated over the length, the cubic term being integrated with the object's own quadrature.", "quantifier": "every positive E, I, rho, A, L, all k1, k3, mu, Fz, v, every number of terms, every number of quadrature points, every time, every trajectory of the equations", "why_tests_cant": "the published curves check one beam; normalisation of six parameters and orthogonality of all modes must fit for every beam", "anchors": ["geotecha/beam_on_foundation/dingetal2012.py:DingEtAl2012.__init__", "DingEtAl2012.vectorfield", "DingEtAl2012.w", "DingEtAl2012.phiSS"]}
{"id": "C146", "title": "DingEtAl2012: quadrature points and weights for simply supported beams", "statement": "The quadrature points of a simply supported beam rise strictly from 0 to 1; the weights integrate every polynomial of degree below the number of points exactly over (0, 1); the integral of any other function is missed by at most (1 + sum of |weights|) times its distance from such a polynomial; and for different points the equations for the weights are not singular.", "quantifier": "every number of points, every polynomial, every integrable function", "why_tests_cant": "exactness is a statement about all polynomials and all numbers of points", "anchors": ["geotecha/beam_on_foundation/dingetal2012.py:DingEtAl2012.__init__"]}
{"id": "C147", "title": "DingEtAl2012: clamped and free mode shapes, output of wofx", "statement": "For every positive root of cos b cosh b = 1 the clamped mode shape satisfies phi'''' = b^4 phi with zero deflection and slope at both ends and the free one with zero moment and shear at both ends; with normalise_w=None wofx gives one row per x and one number per time, each the sum of coefficients times mode shapes, and a single row for a single x; x is divided by L. (Known defects, proved: with clamped or free ends and three or more quadrature points, default 30, first and last point coincide and the constructor always fails; with nquad=None the equations cannot be evaluated (AttributeError); with free ends the first root is replaced by 0 where the mode shape is 0/0; normalise_w=True and False both multiply by L.)", "quantifier": "every root, every x, every solution array, every constructor input with these ends", "why_tests_cant": "the defects are hidden because only the simply supported beam is tested; end conditions hold for all roots", "anchors": ["geotecha/beam_on_foundation/dingetal2012.py:DingEtAl2012.__init__", "DingEtAl2012.phiCC", "DingEtAl2012.phiFF", "DingEtAl2012.wofx", "DingEtAl2012.vectorfield"]}
{"id": "C148", "title": "Static point loads on a beam on an elastic foundation", "statement": "With characteristic length L = (4EI/k)^(1/4), Q/(2kL) times the static deflection shape function is the deflection of an infinite beam of stiffness EI on springs k under a point load Q: it satisfies EI w'''' + k w = 0 on both sides, deflection, slope and moment are continuous and the shear jumps by Q; it is 1 under the load before scaling, nowhere more than 1 in size, symmetric, and dies out in both directions; multi_static returns evenly spaced x from xlim[0] to xlim[1] and the superposition of the single deflections.", "quantifier": "every positive L and k, every load, position and x, every list of loads and number of points", "why_tests_cant": "a differential equation with jump conditions for every stiffness and position", "anchors": ["geotecha/beam_on_foundation/specbeam.py:static_point_load_shape", "specbeam.py:point_load_static_defl_shape_function", "specbeam.py:multi_static"]}
{"id": "C149", "title": "Moving load on an infinite beam on an elastic foundation", "statement": "For velocity ratio v/vcr with vcr = sqrt(2 sqrt(k EI)/m) and damping ratio c/(2 sqrt(m k)), the deflections moving_load_on_beam_on_elastic_foundation returns are, in the moving coordinate and scaled by Q lam/(2k), a wave that satisfies EI w'''' + m w_tt + c w_t + k w = 0 ahead of and behind the load, with deflection, slope and moment continuous at the load and the shear jumping by Q at all times; if np.roots orders the roots as the code assumes (first two with negative real part) the deflection dies out exponentially on both sides, and a load that stands still gives exactly the static shape; DAFinfinite and DAFrelative are the largest real deflection among 1001 points times kratio^(-3/4), and kratio^(-3/4) for a load that stands still.", "quantifier": "all positive EI, m, k, all c, v, Q, all x and times, every correct root finder and linear solver", "why_tests_cant": "a partial differential equation with jump conditions for all speeds and dampings", "anchors": ["geotecha/beam_on_foundation/specbeam.py:moving_load_on_beam_on_elastic_foundation", "specbeam.py:DAFinfinite", "specbeam.py:DAFrelative"]}
{"id": "C150", "title": "tanh transitions and their inverses", "statement": "For b > 0 tanhtran rises strictly from 0 to 1, stays strictly between and is 1/2 at x = 1/2; with centre a = 1/2, tanhtrani is its inverse on (0,1), and tanhtranib gives the width for which the transition passes through a chosen point. (Known defect, proved: tanhtran ignores a; with a other than 1/2 its value at a is not 1/2 and both inverses fail for every point.)", "quantifier": "every x, every y in (0,1), every width", "why_tests_cant": "inverse functions over all reals; the documented parameter a has no effect", "anchors": ["geotecha/beam_on_foundation/specbeam.py:tanhtran", "specbeam.py:tanhtrani", "specbeam.py:tanhtranib"]}
{"id": "C151", "title": "Reverse curve transition between two tracks", "statement": "reverse_curve_transition is y1 before the first and y2 after the second point, does not depend on the order in which the points are given, follows two arcs of circles of equal radius tangent to the ends, and if |y2 - y1| <= |x2 - x1| is monotone, between y1 and y2, at the mean height in the middle and continuous; equal y give the constant, equal x with different y a ValueError. (Known defect, proved: if the rise exceeds the length the curve jumps in the middle.)", "quantifier": "all end points, all x", "why_tests_cant": "continuity and monotonicity over all x and all end points", "anchors": ["geotecha/beam_on_foundation/specbeam.py:reverse_curve_transition"]}
{"id": "C152", "title": "MovingPointLoads: where the axles are and when they are on the beam", "statement": "An axle at distance a from the reference point is at x0 + a + v(t - t0) for v > 0 and at x0 + L - a + v(t - t0) for v < 0 (mirrored vehicle entering from the right). axle_positions gives the positions; time_axles_pass_point and time_axles_pass_beam_point give exactly the times at which each axle is at x; start_time and end_time, and the load lines of convert_to_specbeam, delimit exactly the times at which the axle is between x0 and x0 + L, with its load in between, and omega*t + phase of convert_to_specbeam is its position at every time; what is not given is taken from the object; v = 0 is a ValueError, a velocity without a length a TypeError; point_loads_on_beam gives position and load (0 off the beam) for t0 = 0 and, when v < 0, x0 = 0. (Known defects, proved: point_loads_on_beam ignores t0, and x0 when v < 0; assigning L later leaves the times of the old length.)", "quantifier": "every vehicle, velocity, length, start time and position, every time and point", "why_tests_cant": "round trips between times and positions for all vehicles and directions", "anchors": ["geotecha/beam_on_foundation/specbeam.py:MovingPointLoads", "MovingPointLoads.convert_to_specbeam", "MovingPointLoads.point_loads_on_beam", "MovingPointLoads.time_axles_pass_point", "MovingPointLoads.time_axles_pass_beam_point"]}
{"id": "C153", "title": "SpecBeam satisfies the equation of a beam on a nonlinear viscoelastic foundation with properties varying along its length (Galerkin)", "statement": "Give SpecBeam (BC 'SS') physical E, I, rho, A, L, k1, k3, mu, the profiles Ebar, Ibar, rhobar, Abar, k1bar, mubar, vehicles starting at time 0 and standing point loads (each with an optional circular frequency, phase 0). If the Galerkin coefficients follow the equations the object hands to odeint, then at every time the deflection w = L sum q_k sin((k+1) pi x / L) satisfies, for each mode, integral of [E I w'' mode'' + (rho A w_tt + mu w_t + k1 w) mode] over the beam = sum of the axle loads on the beam and the standing loads, each times the mode at its position, minus the integral of k3 w^3 mode taken by the object's quadrature; all coefficients varying as their profiles say. (Known defects, proved: the profile k3bar has no effect at all, k1bar is used in its place; a vehicle with a start time other than 0 is at the wrong place; the phase of a standing load is divided by E A.)", "quantifier": "every beam, profile, number of modes, set of vehicles and standing loads, every solution of the equations, every time", "why_tests_cant": "tests compare with one or two published uniform beams; a wrong factor in a varying coefficient or a load position shows only for other data", "anchors": ["geotecha/beam_on_foundation/specbeam.py:SpecBeam.__init__", "geotecha/beam_on_foundation/specbeam.py:SpecBeam.vectorfield", "geotecha/beam_on_foundation/specbeam.py:SpecBeam.time_independant_matrices"]}
{"id": "C154", "title": "SpecBeam: physical and normalised input mean the same", "statement": "The constructor stores kf = sqrt(I/A)/L, mu = mu/A sqrt(L^2/(rho E)), k1 = k1 L^2/(E A), k3 = k3 L^4/(E A), times t/L sqrt(E/rho), positions x/L; a normalised quantity that is given is taken as it is whatever else is given; a case given by physical quantities and the same case given by normalised quantities only yield the same coefficients and the same normalised deflection. Any BC other than 'SS' raises; use_analytical with a nonzero k3 raises ValueError. (Known defects, proved: k3=0 stated explicitly is refused by use_analytical as if it were not zero; stationary_loads_vs_t without stationary_loads_x is dropped silently.)", "quantifier": "every combination of arguments", "why_tests_cant": "forty optional arguments in two sets of units; tests use a few combinations", "anchors": ["geotecha/beam_on_foundation/specbeam.py:SpecBeam.__init__"]}
{"id": "C155", "title": "SpecBeam: what runme returns", "statement": "When runme calculates (force_calc, or no file and no earlier result), odeint starts from rest at the normalised times, defl_norm has a row for each position and a column for each time, defl = L defl_norm, and each entry of defl is L sum q_k(t) sin((k+1) pi x / L) at that position and time; wofx in physical units is L times the normalised one. (Known defect, proved: without force_calc any earlier result or file of the same stem is returned unchecked, whatever beam it belongs to.)", "quantifier": "every beam, all positions and times, every content of the file", "why_tests_cant": "depends on the history of the object and of the disk", "anchors": ["geotecha/beam_on_foundation/specbeam.py:SpecBeam.runme", "geotecha/beam_on_foundation/specbeam.py:SpecBeam.wofx", "geotecha/beam_on_foundation/specbeam.py:SpecBeam.load_defl"]}
{"id": "C156", "title": "Stress paths: which dictionaries are accepted and what they mean", "statement": "StressPath(path_dicts) accepts the dictionaries exactly when each has 'vl' and 'name'; then there is one step per dictionary, in order, with that value and name, a stress change unless ist is False, and 100 points unless npp is given. The first dictionary without 'vl' raises KeyError. combine_datapoints joins the points of all the steps end to end, in order. (Known defect, proved: the name is documented as optional, but the default name subscripts the type str, so a step without a name raises TypeError.)", "quantifier": "every list of path dictionaries; every list of step results", "why_tests_cant": "The examples always give names; acceptance and order must hold for every list of dictionaries.", "anchors": ["geotecha/constitutive_models/epus.py: StressPath.__init__, StressPath.combine_datapoints, DataResults.__add__, DataResults.__radd__"]}
{"id": "C157", "title": "CurveFittingSWCC.DWc is the derivative of the corrected water content", "statement": "For a > 0, b != 0, Gs != 0 and every suction s > 0, DWc(s) is exactly the derivative at s of (Wc(s) + wr) * C(s), with C(s) = 1 - ln(1 + s/psi)/ln(1 + 10^6/psi) and psi = a^(1/b). (Known defect, proved: it is documented as the derivative of Wc, which it is not: for every soil with wr = 0, at suction 10^6 DWc gives 0 while Wc has a slope that is not 0.)", "quantifier": "all curve parameters with a > 0, all Gs, all suctions", "why_tests_cant": "A derivative is a limit; tests compare one number computed by the code itself.", "anchors": ["geotecha/constitutive_models/epus.py: CurveFittingSWCC.Wc, CurveFittingSWCC.DWc, EPUS.DWc"]}
{"id": "C158", "title": "EPUS pore-size distribution", "statement": "After SlurryPoreSize the groups' air-entry values are MinSuction, MinSuction + h, ... with h = (MaxSuction - MinSuction)/Npoint (log10 scale); all groups are filled with no air entrapped; every group's compression indexes are Ccs and Css times the density of the drying curve times the width of the group, so 0 <= Csp <= Ccp when 0 <= Css <= Ccs; Ccd is in the ratio Ccd/Ccs; its slurry volume is the stated closed form; its water-entry value is AEV - logDS + (logRS-1)(AEV - log10(a)/b) up to log10(2.7a)/b and falls back linearly to AEV at 10^6 above. Without hysteresis (logDS=0, logRS=1) it equals the air-entry value, and it never exceeds it when logRS >= 1, logDS >= (logRS-1) log10(2.7)/b and log10(2.7a)/b < 6.", "quantifier": "all soil parameters with a, b > 0, all numbers of groups", "why_tests_cant": "Closed forms and inequalities over all parameters; doctests show one group of one soil.", "anchors": ["geotecha/constitutive_models/epus.py: EPUS.DryPoreSize, EPUS.SlurryPoreSize, PoresizeDistribution"]}
{"id": "C159", "title": "EPUS results respect phase relations whatever the stress path", "statement": "For every reported point of every stress path: e >= 0, w >= 0, w*Gs <= e, and when e > 0: 0 <= Sr <= 1, Sr*e = Gs*w, 0 <= vw < 1, vw*(1+e) = Gs*w. Whatever sequence of Drying, Wetting, Loading, Unloading is called: the groups keep their identity, no yield stress ever falls, a group that has drained counts as holding entrapped air for ever, and volumes stay non-negative. Drying fills no group, wetting and loading drain none, unloading does neither. With rigid pores (pore_shape 0) a group drains exactly when the suction reaches its air entry value, fills on wetting exactly when the suction comes down to its water entry value, and on loading exactly when the suction is below it. The reference degree of saturation follows the main curve it is on, and on a scanning curve is the smaller (drying) or larger (wetting) of its old value and the main curve's.", "quantifier": "all soil parameters with Gs > 0 and 0 <= beta <= 1, all stress paths, all call sequences", "why_tests_cant": "The invariants must hold after every history of drying, wetting, loading and unloading.", "anchors": ["geotecha/constitutive_models/epus.py: EPUS._Calresults_scalar, EPUS.Drying, EPUS.Wetting, EPUS.Loading, EPUS.Unloading"]}
{"id": "C160", "title": "EPUS on a saturated path is the logarithmic compression law", "statement": "On a path of stress changes only, the soil stays saturated and every reported void ratio is the sum over the groups of max(0, RV - Ccp (log10 y - MinSuction) + Csp (log10 y - log10 c)), with c the current suction + isotropic stress and y the highest one reached in the loading steps so far (at least 0.0001); w = e/Gs, Sr = 1.", "quantifier": "all soil parameters, all paths of stress changes of any length", "why_tests_cant": "A closed form for all histories of loading and unloading.", "anchors": ["geotecha/constitutive_models/epus.py: EPUS._Calresults_scalar, EPUS.Loading, EPUS.Unloading, EPUS.Changevolume"]}
{"id": "C161", "title": "EPUS: within a step water and voids move one way", "statement": "Along a drying step neither water content nor void ratio increases; along a wetting step water content does not decrease; along an unloading step neither water content nor void ratio decreases; from any point of the step to any later one, whatever steps came before.", "quantifier": "all sensible soils (0 <= Css <= Ccs, a, b > 0), all paths, all steps, all pairs of points", "why_tests_cant": "Monotonicity at every pair of points after every history.", "anchors": ["geotecha/constitutive_models/epus.py: EPUS.Drying, EPUS.Wetting, EPUS.Unloading, EPUS._Calresults_scalar"]}
{"id": "C162", "title": "EPUS objects can be re-run", "statement": "Calresults gives on an object on which any sequence of methods and runs has been made exactly the results and the error it gives on a new object with the same parameters.", "quantifier": "all parameters with MinSuction <= MaxSuction, all histories of use, all paths", "why_tests_cant": "The object carries state (pores, Srdry, Srwet, RefSr) between runs; independence from all histories is not testable.", "anchors": ["geotecha/constitutive_models/epus.py: EPUS.Calresults, EPUS._Calresults_scalar, EPUS.DegreeofsaturationSWCC, EPUS.SlurryPoreSize"]}
{"id": "C163", "title": "EPUS: which points are reported and when a run succeeds", "statement": "Each step reports npp points; its suctions (or stresses) run in equal ratios from the value the path had reached to the step's value, the other variable constant, with values of 999999 and more reported as 999998. With Assumption other than 1, nothing divided by zero (logRS != 0, Ccs != 0, ...) and every step with positive value, npp != 1 and suctions within 10^MinSuction..10^MaxSuction, the run succeeds; a step with a value of zero or less raises an error. (Known defect, proved: with the documented defaults, logRS = 0, every run raises ZeroDivisionError.)", "quantifier": "all soil parameters, all paths", "why_tests_cant": "Totality over all parameters and paths.", "anchors": ["geotecha/constitutive_models/epus.py: EPUS._Calresults_scalar, EPUS.__init__, EPUS.DryPoreSize, EPUS.RfSr, EPUS.ChangeSuction, EPUS.ChangeWetSuction"]}
{"id": "C164", "title": "EPUS: the Fortran implementation against the Python one", "statement": "The Fortran implementation of Calresults (the default) satisfies, whatever its uninitialised memory contains, the same phase relations as C159 at every reported point. On paths of stress changes only, both implementations give the same results. In one drying call on the same state the same groups drain, with the same yield stresses, and only the volumes of groups that drain in that call differ; when dry pores are incompressible (Assumption other than 1) one wetting call gives the same groups. (Known defects, proved: the Python version overwrites the volume of a draining group with the one at the new suction, so the two disagree on the void ratio of a path that dries the soil; with Assumption = 1, the default, the Fortran version reads one element beyond the end of its reference curve.)", "quantifier": "all soil parameters, all paths, all contents of uninitialised memory", "why_tests_cant": "Agreement of two implementations over all inputs; reads of uninitialised or foreign memory are not reproducible.", "anchors": ["geotecha/constitutive_models/epus_ext.f95: Drying, Wetting, RfSr_value, DegreeofsaturationSWCC, Calresults", "geotecha/constitutive_models/epus.py: EPUS._Calresults_fortran, EPUS._Calresults_scalar"]}
{"id": "C165", "title": "EpusProfile.calc: the profile it leaves", "statement": "The grid has every evenly spaced depth from 0 to H (both included) and, strictly inside, the water table and the points a fifth of a spacing above and below it, strictly increasing; it needs two points. The pore pressure is hydrostatic about the water table and, above it, the initial suction is its negative. When calc finishes, void ratio, water content and saturation at each point are those EPUS gives for the stress and suction before the last pass, the unit weight is (Gs + Sr e)/(1 + e) times that of water, total stress is the surcharge plus the trapezoidal weight of the soil above and effective stress is total stress minus positive pore pressure; niter has one entry per refinement between 1 and max_iter, and an entry below max_iter means stresses changed by at most atol + rtol |stress| in the last pass. With either EPUS implementation 0 < e, 0 <= Sr <= 1, 0 < unit weight <= Gs times that of water, total stress strictly increases with depth, and so does effective stress down to the water table. (Known defects, proved: non-convergence is never reported, whatever the tolerances; the factors of Npoint_refine and npp_refine have no effect, Npoint and npp are scaled with nz_refine.)", "quantifier": "all parameters, all EPUS responses, all numbers of refinements and iterations", "why_tests_cant": "An equilibrium condition for every profile and every soil response, and the behaviour of a loop that may not converge.", "anchors": ["geotecha/constitutive_models/epus.py: EpusProfile.calc, _blank_profile, _initialize_stress, _stress_from_overburden, _update_density, _e_and_Sr_from_EPUS"]}
{"id": "C166", "title": "EpusProfile.compression_indexes", "statement": "At every point of the profile m1s and m2s are the change of void ratio per (1 + e) and per unit of stress dsig and suction dpsi, m1w and m2w those of the water volume Sr e, and m1a, m2a the differences, so that soil = water + air exactly. The added stress is dsig on top of the point's own stress; a drop of pore pressure by dpsi is all suction above the water table, all effective stress where the pressure stays above the least suction, and otherwise uw of stress and the rest as suction. On success the profile is as before. (Known defects, proved: a point whose pressure is not less than dpsi but exceeds it by less than the least suction makes the whole calculation fail; when it fails at a point, the object's profile keeps the results of the failed calculation in the points above.)", "quantifier": "all profiles, all increments, all EPUS responses", "why_tests_cant": "Identities for every profile, and the state left by a failure at any point.", "anchors": ["geotecha/constitutive_models/epus.py: EpusProfile.compression_indexes"]}
{"id": "C167", "title": "EpusProfile: water and air permeability", "statement": "Water permeability is the saturated permeability at the point's void ratio where the suction is at or below the least suction, and otherwise that times the relative permeability of C106 read at the point's suction off the drying curve of EPUS at the point's stress, between 0 and 1 for a proper curve. Air permeability is the dry permeability times (1 - Sr)^(1/2) (1 - Sr^(1/q))^(2q): between 0 and the dry permeability, zero at saturation and all of it when dry.", "quantifier": "all profiles, all permeability models, all EPUS responses, all q > 0", "why_tests_cant": "Range and limits for every profile.", "anchors": ["geotecha/constitutive_models/epus.py: EpusProfile.water_permeability, EpusProfile.air_permeability"]}
{"id": "C168", "title": "Load integrals are right for complex eigenvalues", "statement": "pEload_linear and pEload_sinlinear accept complex eigenvalues: entry (i, j) is the integral from the first load time to t_i (or the last load time) of load(tau), respectively load(tau)*sin(omega*tau+phase), times exp(-dT*lam_j*(t_i - tau)), in the scalar and vectorized implementations, provided dT*lam_j is not zero and (sine) not +-i*omega, where the closed form divides by zero.", "quantifier": "all load tables without doubled points, all complex eigenvalues off resonance, all times", "why_tests_cant": "The closed forms are hundreds of terms long and must agree with the integral for every complex eigenvalue and every load.", "anchors": ["geotecha/speccon/integrals.py: Eload_linear, Eload_sinlinear"]}
{"id": "C169", "title": "The analytical beam solution is the motion", "statement": "SpecBeam(use_analytical=True) on linear springs (k3 and all nonlinear parameters off): the deflections reported at (x_i, t_j) are sum_k q_k(t_j)*sin(beta_k*x_i) where the amplitudes q_k are the one and only continuous solution of the mass/damping/stiffness system lam_qdotdot*q'' = psi_q*q + psi_qdot*q' + (work of every axle while it is on the beam and of every stationary load) at rest until the first load comes; the result is real: the check for imaginary parts never raises.  Assumed: numpy.linalg inv and eig return inverses and eigenpairs, no eigenvalue is zero, no axle's frequency speed*beta_k is resonant (+-i*speed*beta_k an eigenvalue), stationary loads have no frequency and each table has no doubled times.", "quantifier": "all beams, moving loads (several vehicles, several axles), stationary load tables, times and numbers of modes; every solution of the equations of motion", "why_tests_cant": "Uniqueness and agreement with the differential equations at every instant is a statement over all motions; the code's route runs over complex eigenvectors, hundreds-of-terms closed-form integrals and time windows for each axle.", "anchors": ["geotecha/beam_on_foundation/specbeam.py: SpecBeam.runme, _make_gam, _make_psi, _make_eigs_and_v, make_E_Igamv_the, _make_v_E_Igamv_the, _make_defl", "geotecha/speccon/speccon1d.py: dim1sin_E_Igamv_the_mvpl, dim1sin_E_Igamv_the_deltamag_linear"]}
{"id": "C170", "title": "The numerical and the analytical beam solution agree", "statement": "On linear springs (k3 = 0), with vehicles that start at time 0 and stationary loads without frequency: every solution from rest of the equations SpecBeam hands to odeint has, at every reported time, exactly the deflections that use_analytical=True reports, and such solutions exist; so with an odeint that returns exact values runme gives the same numbers with and without use_analytical.  Between the first and the last time each stationary load's table must cover the time or have a zero end value. (Known defect, proved: outside its table a load keeps its end value in the numerical path and is absent in the analytical one.  Start times other than 0 are ignored by the numerical path, see C153.)", "quantifier": "all simply supported beams, numbers of modes, vehicles, stationary loads, times and positions; all solutions of the equations", "why_tests_cant": "The two paths share almost no code: one integrates an ODE, the other sums closed-form load integrals over complex eigenvectors; agreement at every time for every load is a uniqueness statement.", "anchors": ["geotecha/beam_on_foundation/specbeam.py: SpecBeam.vectorfield, calulate_qk, wofx, runme, _make_E_Igamv_the, _make_v_E_Igamv_the, _make_defl", "geotecha/beam_on_foundation/specbeam.py: MovingPointLoads.point_loads_on_beam, convert_to_specbeam"]}
{"id": "C171", "title": "The drain spacing found for a required eta has that eta", "statement": "When back_calc_drain_spacing_from_eta returns (sp, re, n) and fsolve has found a root, sp is positive, re is the drain's radius of influence at sp for the given pattern, n = re/rw, and drains at that spacing have exactly the required eta: eta*(re^2*(mu+muw)) = 2 with mu from the given function at n; unless mu_function is mu_ideal or mu_overlapping_linear, n is not below the largest s. Without smear, or with smear of constant permeability, no other spacing has this eta (mu grows strictly with n). The first guess lies beyond twice the smear zone for either pattern. Several values of s or kap are refused but for the piecewise functions. (Known defect, proved: fsolve's failure goes unnoticed, so for an unreachable eta, e.g. a negative one, a spacing is returned that does not have it.)", "quantifier": "all eta, patterns, mu functions, drain radii, smear zone sizes and permeability ratios, all behaviours of fsolve", "why_tests_cant": "A test back-calculates a few spacings; that the value found is the only one, and that it has the required eta, is a statement about all arguments and about a monotone transcendental function.", "anchors": ["geotecha/consolidation/smear_zones.py: back_calc_drain_spacing_from_eta, calc_eta, drain_eta, re_from_drain_spacing"]}
{"id": "C172", "title": "Deflection under each axle", "statement": "After runme on a simply supported SpecBeam with moving loads, defl_vs_time_under_loads stores for every vehicle, axle and time either nan, exactly when the axle is outside the limits, or the value the deflection table gives at the axle's position by a straight line between its two neighbouring grid points. When the table holds the deflections of a mode sum, that value differs from the true deflection at the axle by at most h^2/8 times the sum over the modes of beta_k^2 |q_k|, h being the largest grid step. moving_load_w is L times moving_load_w_norm. Without moving loads, or with a single x value in the numerical path, it raises; otherwise it returns. (Known defect, proved: for a vehicle with a start time other than 0 the position used here is not the one where the numerical path applies its load.)", "quantifier": "all simply supported beams, vehicles, times, grids with rising x, limits and deflection tables", "why_tests_cant": "Tests look at plots of a few runs; where an axle is at each time and how far linear interpolation can be off is a statement about all grids, speeds and mode sums.", "anchors": ["geotecha/beam_on_foundation/specbeam.py: SpecBeam.defl_vs_time_under_loads, MovingPointLoads.axle_positions, SpecBeam.wofx"]}
{"id": "C173", "title": "A function under a time limit", "statement": "A call of a function decorated with timeout(seconds) ends, in every interleaving of parent, child process and queue feeder and with any passage of time, in one of: the function's own return value or its own exception; TimeoutException, and then at least the given seconds have passed since the call, the number it reports being the whole seconds of that; or AssertionError, only when the child ended without an answer (SystemExit, killed from outside, an answer that cannot be pickled). With force_kill no child outlives the answer. A child that is over while the parent waits is never reported as timed out. With a limit the parent can always get to an answer without further steps of the child. (Known defects, proved: an answer larger than the pipe's buffer is never delivered but always reported as a time-out, or never answered without a limit, because the parent joins the child before reading; and if the child is killed after put and before its answer is written, or its answer cannot be pickled and the feeder keeps the slot, the call waits for ever in spite of the limit.)", "quantifier": "all schedules of the two processes, all time advances, all answers, message sizes, pipe capacities, limits, and a kill of the child at any point", "why_tests_cant": "The doctest calls one function with two waits; races between join, exit, put and the feeder, crash points and message sizes cannot be enumerated by running it.", "anchors": ["geotecha/inputoutput/timeout.py: timeout, RunableProcessing"]}
{"id": "C174", "title": "The plotting helpers call each object's method, merge dict arguments and set attributes in order", "statement": "iterable_method_call with no argument calls the named method of every element without arguments, with one argument None does nothing, with one other argument calls every element's method with it, and with two or more arguments, no more than there are elements, calls element k's method with argument k, leaving elements whose argument is None, or that have no argument, untouched; an unpacked argument is spread. Calls happen in order: those before the first exception are done, that exception is raised, and the elements from it on are as before. With more arguments than elements IndexError is raised, but only after every element has been called. split_sequence_into_dict_and_nondicts returns the arguments that are not dicts in their order, and one dict that maps each key to what the last dict containing it says, with no other keys. apply_dict_to_object raises ValueError and changes nothing when the two lists differ in length; otherwise each object gets the settings of its own dict, in the dict's order, keys without a setter passed over, None meaning nothing, up to the first exception; what was not reached is as before.", "quantifier": "all lists of objects, methods and setters (with any exceptions), argument lists with None anywhere, and all dicts", "why_tests_cant": "The tests call each helper on one or two fixed lists; order of effects, partial effects at an exception and merged keys range over all lists, methods and failure points.", "anchors": ["geotecha/plotting/one_d.py: iterable_method_call, split_sequence_into_dict_and_nondicts, apply_dict_to_object"]}
{"id": "C175", "title": "Styles from MarkersDashesColors repeat the requested indexes", "statement": "When at least one non-empty list of indexes is given and the call returns, it returns as many styles as the longest list has entries; style i uses entry i of each list, each list repeated from its start as often as needed: the marker's own symbol with the chosen colour (or the default colour) on its edge and face, except where the marker has edge or face 'none', the chosen dashes, or no line, and the chosen line colour or the default. When nothing is requested every default marker, every dash pattern and every colour appears in at least one style, and there are as many styles as the longest of the three. (Known defect, proved: a given empty list beside a non-empty one raises StopIteration.)", "quantifier": "all lists of indexes with None anywhere, and all tables of markers, dashes and colours", "why_tests_cant": "The examples show a fixed demo figure; cycling lists of different lengths against each other and against tables of any size cannot be enumerated.", "anchors": ["geotecha/plotting/one_d.py: MarkersDashesColors.__call__"]}
{"id": "C176", "title": "The non-Darcian series g and its integral agree in both branches and have the documented meaning", "statement": "For re/rw > 1, exponent n > 1, at least one term, and r/rw >= 1, the functions g and gbar give the same value for numbers (recurrence and cumulative product) as for arrays (Pochhammer form); gbar is an antiderivative of y g(y) for every number of terms; the slope of g is y^(-1/n) times the truncated binomial series of (1 - (y/N)^2)^(1/n) and, between the drain and the outer radius, tends to ((N^2 - y^2) / (N^2 y))^(1/n), the gradient that carries the flow from outside y, as the number of terms grows; with any number of terms g increases strictly from the drain to the outer radius. Arguments outside the ranges raise ValueError; with no terms the number branch raises IndexError and the array branch gives 0.", "quantifier": "all radii, radius ratios, flow exponents greater than 1 and numbers of terms", "why_tests_cant": "The doctests compare five values; equality of the two branches for every number of terms, the integral relation, monotonicity of truncated series and the limit are statements over all reals and all truncations.", "anchors": ["geotecha/consolidation/smear_zones.py: _g, _gbar"]}
{"id": "C177", "title": "Non-Darcian beta is the mean of the pore pressure profile, and u has the requested mean", "statement": "For valid zones (increasing radii above 1, positive permeability ratios, as many of each, exponent above 1, at least one term) there is a profile, zero at the drain, continuous, whose slope in each zone is (permeability ratio)^(1/n) times the slope of g, such that non_darcy_beta_piecewise_constant returns its mean over the area of the ring, which is positive, and non_darcy_u_piecewise_constant returns at every requested radius in the ring uw + (uavg - uw) (profile + muw) / (beta + muw), whose mean over the area of the ring is uavg whenever beta + muw is not zero. The function returns a value exactly for valid zones; n and kap_m append an outer zone, kap_m missing meaning the last ratio. non_darcy_beta_ideal is the case of one zone of ratio 1; non_darcy_beta_constant is the case of two zones, and equals the ideal value when the smear zone has no width or ratio 1. Out-of-range arguments, and radii outside the ring, raise ValueError.", "quantifier": "all numbers of zones, radii, permeability ratios, exponents above 1, numbers of terms, radii asked for, mean pressures, drain pressures and well resistance terms", "why_tests_cant": "The doctests compare a few values of each function; that beta is a mean over every layout of zones, and that u always averages to uavg, are statements about integrals of all such profiles.", "anchors": ["geotecha/consolidation/smear_zones.py: non_darcy_beta_ideal, non_darcy_beta_constant, non_darcy_beta_piecewise_constant, non_darcy_u_piecewise_constant"]}
{"id": "C178", "title": "Non-Darcian drain eta is the strain rate coefficient of Hansbo's flow law", "statement": "For positive radius, limiting gradient, unit weight and beta, radius ratio above 1 (given by keyword n or as the first positional argument) and exponent above 1, non_darcy_drain_eta returns a positive eta such that the documented strain rate u^n k / gamw eta balances the flow: with the radial pressure profile whose mean is u and whose slope is that of C177 (with the series taken to its limit), Hansbo's law v = k_star i^n, k_star chosen so that the law meets Darcy's with slope k at the limiting gradient, gives through every radius, in a zone of any permeability ratio, exactly the flow expelled by the soil outside it. With neither keyword n nor positional arguments IndexError is raised, without nflow KeyError, a zero n, radius, limiting gradient, unit weight or beta gives ZeroDivisionError, and an exception of the beta function is passed on.", "quantifier": "all radii, limiting gradients, unit weights, radius ratios, exponents above 1, betas, permeabilities, permeability ratios, mean pressures and radii in the ring", "why_tests_cant": "The doctests check three numbers; that the exponents of every factor are the ones the flow law demands is an identity over all parameters.", "anchors": ["geotecha/consolidation/smear_zones.py: non_darcy_drain_eta"]}
