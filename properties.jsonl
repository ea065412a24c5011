{"id": "C01", "title": "findcross returns exactly the level crossings", "statement": "For every non-empty signal x and level v, findcross(x, v) returns, in strictly increasing order and without duplicates, exactly the indices i with i+1 < len(x) such that x[i+1] is strictly on one side of v and, walking back from i over the samples that are equal to v, the first sample different from v (if there is one) is strictly on the other side. Touching the level without crossing it is never reported.", "quantifier": "all finite signals, all levels", "why_tests_cant": "The claim ranges over all signals of all lengths; a test fixes a handful of signals and cannot exclude a pattern of ties, plateaus or boundary samples that breaks it.", "anchors": ["src/wafo/misc.py:findcross", "src/wafo/_misc_numba.py:_findcross", "src/wafo/_misc_numba.py:findcross"]}
{"id": "C02", "title": "Crossings alternate; kinds u and d select by direction", "statement": "The indices returned by findcross alternate between up-crossings and down-crossings, and findcross(x, v, \"u\") (resp. \"d\") returns exactly the up-crossings (resp. down-crossings) of x, in order.", "quantifier": "all finite signals, all levels", "why_tests_cant": "The claim ranges over all signals of all lengths; a test fixes a handful of signals and cannot exclude a pattern of ties, plateaus or boundary samples that breaks it.", "anchors": ["src/wafo/misc.py:findcross"]}
{"id": "C03", "title": "Wave definitions of findcross", "statement": "For kind in {dw, uw, tw, cw}, findcross returns a contiguous block of the full crossing list obtained by dropping at most one crossing at the front and at most one at the back; when non-empty its first element is a down-crossing for dw/tw and an up-crossing for uw/cw; its length is odd for dw/uw and even for tw/cw; any other unknown kind raises ValueError as soon as there is a crossing.", "quantifier": "all finite signals, all levels, all kind strings", "why_tests_cant": "The claim ranges over all signals of all lengths; a test fixes a handful of signals and cannot exclude a pattern of ties, plateaus or boundary samples that breaks it.", "anchors": ["src/wafo/misc.py:findcross"]}
{"id": "C04", "title": "The C and the Python implementation of findcross agree and stay in bounds", "statement": "For every non-empty signal the C routine called with (x, v) and the Python routine called on sign(x - v) return the same index list, never read outside the signal and never write more than len(x) indices.", "quantifier": "all finite signals, all levels", "why_tests_cant": "Two implementations are interchangeable only if they agree on every input; memory safety is a claim about every execution.", "anchors": ["source/c_library/c_functions.c:findcross", "src/wafo/_misc_numba.py:_findcross"]}
{"id": "C05", "title": "findextrema returns exactly the alternating local extremes", "statement": "For every signal, findextrema returns in increasing order exactly the indices at which the direction of the signal (ignoring flat pieces) reverses, located at the last sample of the flat piece, plus the end of an initial flat piece; consecutive extremes are alternately local maxima and minima and the signal is monotone between them.", "quantifier": "all finite signals", "why_tests_cant": "The claim ranges over all signals of all lengths; a test fixes a handful of signals and cannot exclude a pattern of ties, plateaus or boundary samples that breaks it.", "anchors": ["src/wafo/misc.py:findextrema"]}
{"id": "C06", "title": "findtp without filtering returns a sequence of turning points", "statement": "For h = 0, whenever findtp returns an array, it is strictly increasing, ends with the last index, its values alternate (low, high, low, ...) and the signal is monotone between consecutive returned indices; for h < 0 every index is returned.", "quantifier": "all finite signals", "why_tests_cant": "The claim ranges over all signals of all lengths; a test fixes a handful of signals and cannot exclude a pattern of ties, plateaus or boundary samples that breaks it.", "anchors": ["src/wafo/misc.py:findtp"]}
{"id": "C07", "title": "findtp wave kinds", "statement": "findtp(x, 0, \"mw\") (resp. \"Mw\") returns an odd number of indices, the first of which is a minimum (resp. maximum) relative to its successor.", "quantifier": "all finite signals with at least two extremes", "why_tests_cant": "The claim ranges over all signals of all lengths; a test fixes a handful of signals and cannot exclude a pattern of ties, plateaus or boundary samples that breaks it.", "anchors": ["src/wafo/misc.py:findtp"]}
{"id": "C08", "title": "findtc returns the extreme between consecutive crossings", "statement": "For every signal with more than two level crossings, findtc(x, v, kind) returns for every pair of consecutive crossings an index strictly after the first and not after the second at which the signal attains its minimum (if the first is a down-crossing) or maximum (if it is an up-crossing) over that stretch. This holds under the conditions of the theorems; refuted beyond them: for the documented kind 'all' ('du') with an even number of crossings the last reported index is not the extreme of its stretch.", "quantifier": "all finite signals, all levels, all documented kinds", "why_tests_cant": "The claim ranges over all signals of all lengths; a test fixes a handful of signals and cannot exclude a pattern of ties, plateaus or boundary samples that breaks it.", "anchors": ["src/wafo/misc.py:findtc"]}
{"id": "C09", "title": "ecross interpolates linearly", "statement": "For every index i with f[i] != f[i+1], ecross returns the unique abscissa where the straight line through (t[i], f[i]) and (t[i+1], f[i+1]) takes the value v; if v lies between f[i] and f[i+1] the abscissa lies between t[i] and t[i+1].", "quantifier": "all real signals, times and levels", "why_tests_cant": "A continuum of inputs.", "anchors": ["src/wafo/misc.py:ecross"]}
{"id": "C10", "title": "rfcfilter removes exactly the small oscillations", "statement": "For every signal and threshold h > 0 the rainflow filter keeps the first sample; consecutive kept samples alternate in direction and differ by at least h; inside a rising (falling) leg the signal never falls (rises) by the threshold or more, and the end points of an inner leg are its minimum and maximum. It never raises for NaN-free data.", "quantifier": "all finite signals, all thresholds h > 0, methods 0 and 1", "why_tests_cant": "The claim ranges over all signals of all lengths; a test fixes a handful of signals and cannot exclude a pattern of ties, plateaus or boundary samples that breaks it.", "anchors": ["src/wafo/misc.py:rfcfilter", "src/wafo/_misc_numba.py:_make_findrfc"]}
{"id": "C11", "title": "rfcfilter is idempotent", "statement": "Filtering a filtered signal again with the same threshold and method returns it unchanged, for method 1 always and for method 0 unless the last kept leg has a range of exactly the threshold (in that case it can shrink again: refuted).", "quantifier": "all finite signals, all thresholds h > 0, methods 0 and 1", "why_tests_cant": "The claim ranges over all signals of all lengths; a test fixes a handful of signals and cannot exclude a pattern of ties, plateaus or boundary samples that breaks it.", "anchors": ["src/wafo/misc.py:rfcfilter", "src/wafo/_misc_numba.py:_make_findrfc"]}
{"id": "C12", "title": "findrfc implements the rainflow definition", "statement": "For every sequence of turning points with a minimum at both ends, method 2 of findrfc pairs every maximum with the higher of its two neighbouring rainflow minima (lowest value before/after the maximum until the signal next rises to the level of the maximum; when it never does so afterwards, with the minimum before it) and reports the pair exactly when its range is at least h.", "quantifier": "all odd-length turning point sequences, all h", "why_tests_cant": "The claim ranges over all signals of all lengths; a test fixes a handful of signals and cannot exclude a pattern of ties, plateaus or boundary samples that breaks it.", "anchors": ["src/wafo/misc.py:findrfc", "src/wafo/_misc_numba.py:_findrfc"]}
{"id": "C13", "title": "findrfc never reads outside its input", "statement": "No index that findrfc reports lies outside of its input, and what it reports does not depend on anything but the input. That every array access stays inside the array is refuted: for an even number of turning points one word behind the array is read, although its value is irrelevant, and two turning points raise IndexError.", "quantifier": "all turning point sequences", "why_tests_cant": "Memory safety is a claim about every execution; an out-of-bounds read in a compiled routine usually returns plausible garbage, so tests pass.", "anchors": ["src/wafo/misc.py:findrfc", "src/wafo/_misc_numba.py:_findrfc", "source/c_library/c_functions.c:findrfc"]}
{"id": "C14", "title": "The C and the Python implementation of findrfc agree", "statement": "For every turning point sequence that starts with a minimum, the C routine and the Python routine return the same index list.", "quantifier": "all turning point sequences, all h", "why_tests_cant": "Agreement of two implementations is a claim about every input.", "anchors": ["source/c_library/c_functions.c:findrfc", "src/wafo/_misc_numba.py:_findrfc"]}
{"id": "C15", "title": "ASTM rainflow counting preserves level crossings", "statement": "For every alternating sequence of turning points and every level u, the number of times the sequence crosses u equals the sum over the rows returned by findrfc_astm whose [mean-amplitude, mean+amplitude) range contains u of twice the cycle count (1 for a half cycle, 2 for a full one). This holds under the conditions of the theorems; refuted beyond them: when two neighbouring points are equal a whole cycle can disappear.", "quantifier": "all alternating sequences, all levels", "why_tests_cant": "The claim ranges over all signals of all lengths; a test fixes a handful of signals and cannot exclude a pattern of ties, plateaus or boundary samples that breaks it.", "anchors": ["src/wafo/misc.py:findrfc_astm", "src/wafo/_misc_numba.py:_findrfc3_astm"]}
{"id": "C16", "title": "ASTM rainflow counting returns exactly its cycles", "statement": "For every alternating sequence of n >= 1 points, findrfc_astm returns exactly the counted cycles (all with positive amplitude, count 0.5 or 1), i.e. the truncation n - c removes all and only the unused rows. This holds under the conditions of the theorems; refuted beyond them: repeated values leave all-zero rows in the result.", "quantifier": "all alternating sequences; refuted for sequences with repeated values", "why_tests_cant": "The claim ranges over all signals of all lengths; a test fixes a handful of signals and cannot exclude a pattern of ties, plateaus or boundary samples that breaks it.", "anchors": ["src/wafo/_misc_numba.py:findrfc_astm", "src/wafo/_misc_numba.py:_findrfc3_astm"]}
{"id": "C17", "title": "ASTM counting with and without times agree", "statement": "findrfc_astm(tp, t)[:, :3] equals findrfc_astm(tp) for every tp and every t of the same length.", "quantifier": "all sequences", "why_tests_cant": "The claim ranges over all signals of all lengths; a test fixes a handful of signals and cannot exclude a pattern of ties, plateaus or boundary samples that breaks it.", "anchors": ["src/wafo/_misc_numba.py:_findrfc3_astm", "src/wafo/_misc_numba.py:_findrfc5_astm"]}
{"id": "C18", "title": "cycle_pairs pairs neighbouring turning points", "statement": "For every sequence of turning points, TurningPoints.cycle_pairs(kind=\"min2max\") (resp. \"max2min\") pairs every minimum (maximum) that has a successor with that successor, so the two returned columns have equal length and min <= max in every row. This holds under the conditions of the theorems; refuted beyond them: turning points that the rainflow filter reduces to nothing make cycle_pairs raise IndexError.", "quantifier": "all alternating sequences", "why_tests_cant": "The claim ranges over all signals of all lengths; a test fixes a handful of signals and cannot exclude a pattern of ties, plateaus or boundary samples that breaks it.", "anchors": ["src/wafo/objects.py:TurningPoints.cycle_pairs"]}
{"id": "C19", "title": "bit accessors: setbit then getbit", "statement": "getbit(setbit(i, b, v), b) is v for v in {0, 1}; every other bit of i is unchanged; setbit is idempotent.", "quantifier": "all non-negative integers and bit positions (unbounded integers)", "why_tests_cant": "All integers and positions.", "anchors": ["src/wafo/bitwise.py:getbit", "src/wafo/bitwise.py:setbit"]}
{"id": "C20", "title": "bit lists round-trip", "statement": "setbits(getbits(i, n)) is i modulo 2**n, and getbits(setbits(bits), len(bits)) is bits for every list of zeros and ones.", "quantifier": "all integers, all bit lists", "why_tests_cant": "All list lengths.", "anchors": ["src/wafo/bitwise.py:getbits", "src/wafo/bitwise.py:setbits"]}
{"id": "C21", "title": "Cumulative count matrix of a cycle matrix", "statement": "For every square matrix F of size n and kind 1 or 11, cmat2nt(F, kind) holds in position (i, j) the number of cycles whose minimum class is below i and whose maximum class is above j (sum of F[p, q] over p < i, q > j); both kinds agree; kinds 0 and -1 raise NotImplementedError and every other kind raises ValueError.", "quantifier": "all square matrices of all sizes", "why_tests_cant": "All sizes and all entries.", "anchors": ["src/wafo/markov.py:cmat2nt"]}
{"id": "C22", "title": "nt2cmat inverts cmat2nt", "statement": "For every matrix F with an empty first column and last row, nt2cmat(cmat2nt(F)) = F, and for every count matrix NT with an empty first row and last column, cmat2nt(nt2cmat(NT)) = NT, for any combination of kinds 1 and 11.", "quantifier": "all square matrices of all sizes", "why_tests_cant": "All sizes and all entries.", "anchors": ["src/wafo/markov.py:cmat2nt", "src/wafo/markov.py:nt2cmat"]}
{"id": "C23", "title": "nt2fr and fr2nt are inverse", "statement": "nt2fr(nt) is the mixed difference of the counts nt exactly when nt[i, j] = nt[j, n-1] for all i, j < n - 1. That nt2fr and fr2nt are inverse, and that neither raises for a square matrix, is refuted: fr2nt raises for every input, and nt2fr is wrong for the counts of an ordinary frequency matrix.", "quantifier": "all square matrices", "why_tests_cant": "All sizes.", "anchors": ["src/wafo/markov.py:nt2fr", "src/wafo/markov.py:fr2nt"]}
{"id": "C24", "title": "Plot flags are decoded consistently", "statement": "Plot flags select plot type and scale digit by digit for all flags, and the transforms f, 1-f, cumtrapz(f), 1-cumtrapz(f), log(f) and log(cumtrapz(f)) come back from the flags they are encoded in. That every documented transform comes back and is accepted is refuted: three do not come back, the last one raises, and plot flag 80 is accepted by one function and an IndexError in the other.", "quantifier": "all documented plot flags and transform ids", "why_tests_cant": "A documented table must be right on every entry, not on a sample.", "anchors": ["src/wafo/containers.py:plotflag2transform_id", "src/wafo/containers.py:transform_id2plotflag2", "src/wafo/containers.py:plotscale"]}
{"id": "C25", "title": "cycle_matrix counts every cycle once", "statement": "For every set of cycle pairs inside the discretisation range, the entries of the cycle matrix are non-negative, and sum to the number of cycles. This holds under the conditions of the theorems; refuted beyond them: level number k of linspace(a, b, n) is a + k (b-a)/(n-1): a cycle between the levels number k and l is not counted at [k, l] but at [k+1, l+1]; a single max-to-min cycle is projected as if it were min-to-max: the same cycle in second position goes elsewhere.", "quantifier": "all lists of cycle pairs", "why_tests_cant": "The claim ranges over all signals of all lengths; a test fixes a handful of signals and cannot exclude a pattern of ties, plateaus or boundary samples that breaks it.", "anchors": ["src/wafo/objects.py:CyclePairs.cycle_matrix", "src/wafo/objects.py:CyclePairs._dcp2cmat"]}
{"id": "C26", "title": "level_crossings kinds", "statement": "CyclePairs.level_crossings counts for each kind number the up-crossings with exactly the documented extremes included. That the documented names u, uM, umM, um select these kinds is refuted: 'u' is rejected and the others count what the name before them promises; so is that only levels of the cycles appear.", "quantifier": "all cycle pairs, all documented kinds", "why_tests_cant": "The four kinds differ only on ties, which random tests do not hit.", "anchors": ["src/wafo/objects.py:CyclePairs.level_crossings"]}
{"id": "C27", "title": "wave_periods returns time differences", "statement": "For strictly increasing times the crossing periods of TimeSeries.wave_periods are positive differences of crossing times if the first crossing is upward. That this also holds if the first crossing is downward, and that min-to-min and max-to-max periods are time differences, is refuted: the latter are differences of sample values.", "quantifier": "all signals and sampling times", "why_tests_cant": "The claim ranges over all signals of all lengths; a test fixes a handful of signals and cannot exclude a pattern of ties, plateaus or boundary samples that breaks it.", "anchors": ["src/wafo/objects.py:TimeSeries.wave_periods"]}
{"id": "C28", "title": "polyder is the derivative", "statement": "polyval(polyder(p, m), x) is the m-th derivative of polyval(p, .) at x for every coefficient list, every m and every x.", "quantifier": "all real coefficient lists, orders and points", "why_tests_cant": "A continuum of coefficients and arguments and every degree.", "anchors": ["src/wafo/polynomial.py:polyder"]}
{"id": "C29", "title": "polyint then polyder", "statement": "polyder(polyint(p, m), m) has the same values as p, and the integration constants are the values at 0 of the successive primitives.", "quantifier": "all real coefficient lists, orders and constants", "why_tests_cant": "A continuum of coefficients and arguments and every degree.", "anchors": ["src/wafo/polynomial.py:polyint", "src/wafo/polynomial.py:polyder"]}
{"id": "C30", "title": "polyreloc translates", "statement": "polyval(polyreloc(p, x, y), r) = polyval(p, r - x) + y for every r, for real coefficients; for lists of integer coefficients it is refuted because intermediate results are truncated.", "quantifier": "all real coefficient lists and shifts", "why_tests_cant": "A continuum of coefficients and arguments and every degree.", "anchors": ["src/wafo/polynomial.py:polyreloc"]}
{"id": "C31", "title": "polyrescl rescales", "statement": "polyval(polyrescl(p, x, y), r) = y * polyval(p, r / x) for x != 0.", "quantifier": "all real coefficient lists and scales", "why_tests_cant": "A continuum of coefficients and arguments and every degree.", "anchors": ["src/wafo/polynomial.py:polyrescl"]}
{"id": "C32", "title": "polyshift and polyishift are inverse changes of variable", "statement": "polyval(polyshift(p, a, b), x) = polyval(p, the affine image of x in the unit interval [-1, 1]); polyishift undoes polyshift in value for a != b.", "quantifier": "all real coefficient lists and intervals", "why_tests_cant": "A continuum of coefficients and arguments and every degree.", "anchors": ["src/wafo/polynomial.py:polyshift", "src/wafo/polynomial.py:polyishift", "src/wafo/polynomial.py:map_from_interval", "src/wafo/polynomial.py:map_to_interval"]}
{"id": "C33", "title": "polytrim preserves the polynomial", "statement": "polytrim removes exactly the leading zeros: the value of the polynomial is unchanged at every point and the result is empty-or-[0] or starts with a non-zero coefficient.", "quantifier": "all real coefficient lists", "why_tests_cant": "A continuum of coefficients and arguments and every degree.", "anchors": ["src/wafo/polynomial.py:polytrim"]}
{"id": "C34", "title": "ortho2poly agrees with orthoval", "statement": "For every recurrence table and coefficients, polyval(ortho2poly(p), x) = orthoval(p, x) for every x.", "quantifier": "all tables, all degrees, all points", "why_tests_cant": "A continuum of coefficients and arguments and every degree.", "anchors": ["src/wafo/polynomial.py:orthoval", "src/wafo/polynomial.py:ortho2poly"]}
{"id": "C35", "title": "chebval sums the Chebyshev series", "statement": "chebval(x, c, k, a, b) is the sum of c_k T_k at the affine image of x, where T is the Chebyshev recurrence; on [-1, 1] T_k(cos t) = cos(k t). This holds under the conditions of the theorems; refuted beyond them: with an integer fill value the results inside the interval are truncated.", "quantifier": "all coefficient lists, all points", "why_tests_cant": "A continuum of coefficients and arguments and every degree.", "anchors": ["src/wafo/polynomial.py:_chebval", "src/wafo/polynomial.py:chebval"]}
{"id": "C36", "title": "cheb2poly and poly2cheb convert exactly", "statement": "polyval(cheb2poly(c), x) = chebval(x, c), and polyval(p, x) = chebval(x, poly2cheb(p)).", "quantifier": "all coefficient lists, all points", "why_tests_cant": "A continuum of coefficients and arguments and every degree.", "anchors": ["src/wafo/polynomial.py:cheb2poly", "src/wafo/polynomial.py:poly2cheb"]}
{"id": "C37", "title": "chebder is the derivative of the series", "statement": "chebval(x, chebder(c)) is the derivative of chebval(., c) at x. As written the code breaks this: for three or more coefficients the value is off by exactly half the last returned coefficient, for one or two it raises IndexError. This holds under the conditions of the theorems; refuted beyond them: the derivative series of a Chebyshev series of degree one has twice the slope; chebder raises IndexError for series of one or two coefficients.", "quantifier": "all coefficient lists with at least two terms", "why_tests_cant": "A continuum of coefficients and arguments and every degree.", "anchors": ["src/wafo/polynomial.py:chebder"]}
{"id": "C38", "title": "chebint is a primitive of the series", "statement": "chebval(., chebint(c)) is a primitive of chebval(., c). As written the code breaks this: no two-term series other than 0 is integrated correctly. This holds under the conditions of the theorems; refuted beyond them: ---- C38 --------------------------------------------------------------------------.", "quantifier": "all coefficient lists", "why_tests_cant": "A continuum of coefficients and arguments and every degree.", "anchors": ["src/wafo/polynomial.py:chebint"]}
{"id": "C39", "title": "chebroot and chebextr", "statement": "chebroot(n, kind) returns exactly the zeros of T_n (kind 1) or U_n (kind 2), each once, in increasing order, inside (-1, 1), and raises ValueError for other kinds; chebextr(n) returns n+1 increasing points from -1 to 1 where T_n is alternately +1 and -1.", "quantifier": "all n, both kinds", "why_tests_cant": "Every degree.", "anchors": ["src/wafo/polynomial.py:chebroot", "src/wafo/polynomial.py:chebextr"]}
{"id": "C40", "title": "Chebyshev fit interpolates", "statement": "The series returned by chebfit (from samples at the Chebyshev roots or from a callable on [a, b]) and by chebinterpolate takes the sampled value at every node.", "quantifier": "all n, all sample vectors", "why_tests_cant": "A continuum of coefficients and arguments and every degree.", "anchors": ["src/wafo/polynomial.py:chebfit", "src/wafo/polynomial.py:chebinterpolate"]}
{"id": "C41", "title": "PPform evaluates the piece that contains the point", "statement": "PPform(coefs, breaks)(x) is the polynomial of the piece (b_i, b_{i+1}] containing x, evaluated at x - b_i, the first coefficient column at the first break and the fill value outside; derivative() is its derivative inside every piece. Not true: the documented interval [b_i, b_{i+1}), evaluation at integer points (truncated), and derivative() of a piecewise constant (evaluation raises). This holds under the conditions of the theorems; refuted beyond them: documented: piece i holds for x_i <= x < x_(i+1). The value at a break is the one of the piece to its left; evaluation at an array of integers truncates the values; the derivative of a piecewise constant cannot be evaluated between the breaks.", "quantifier": "all breaks, coefficients and points", "why_tests_cant": "A continuum of coefficients and arguments and every degree.", "anchors": ["src/wafo/interpolate.py:PPform.__call__"]}
{"id": "C42", "title": "PPform.integrate is a continuous antiderivative", "statement": "PPform.integrate() is continuous, 0 at the first break and has the original as derivative inside every piece; integrate().derivative() is the original object.", "quantifier": "all piecewise polynomials of any order", "why_tests_cant": "A continuum of coefficients and arguments and every degree.", "anchors": ["src/wafo/interpolate.py:PPform.integrate", "src/wafo/interpolate.py:PPform.derivative"]}
{"id": "C43", "title": "SmoothSpline minimizes its smoothing criterion", "statement": "For all increasing abscissae (at least three), all positive variances and every p: the linear system of SmoothSpline has exactly one solution; the spline is twice continuously differentiable, straight outside the data, and minimizes p*sum((y_i-f(x_i))^2/var_i)+(1-p)*int(f'')^2 over all twice continuously differentiable f; it interpolates for p = 1 and is the weighted least squares line for p = 0. Not true: two points are accepted (they raise), and unsorted data give the same spline (variances are not reordered). This holds under the conditions of the theorems; refuted beyond them: two data points pass the check of the code (\"There must be >=2 data points\") but raise; x in decreasing order: x and y are put in order but the variances are not, so variance and data point no longer belong together.", "quantifier": "all data with distinct abscissae, all variances, all p, all competing functions", "why_tests_cant": "Optimality compares with every other smooth function.", "anchors": ["src/wafo/interpolate.py:SmoothSpline._compute_coefs"]}
{"id": "C44", "title": "Pchip interpolation passes through the data, is smooth and preserves its shape", "statement": "For every strictly increasing x of at least two points and every y of the same length, the interpolant built by Pchip passes through every data point, is continuously differentiable, is non-decreasing between two neighbouring points whose values do not decrease and non-increasing where they do not increase, and never leaves the range of two neighbouring data values. A cubic Hermite interpolant built from given slopes has exactly those slopes at the data points. x that is not strictly increasing raises ValueError.", "quantifier": "all strictly increasing x, all y (monotone or not), all slopes, all evaluation points", "why_tests_cant": "The shape statement ranges over all pairs of points of a continuum and over all data sets; sampled evaluations miss overshoot between samples.", "anchors": ["src/wafo/interpolate.py:Pchip", "src/wafo/interpolate.py:_pchip_slope", "src/wafo/interpolate.py:_edge_case", "src/wafo/interpolate.py:CubicHermiteSpline", "src/wafo/interpolate.py:slopes"]}
{"id": "C45", "title": "Steffen slopes preserve shape inside, and everywhere for increasing data, but not at the ends of decreasing data", "statement": "For every strictly increasing x of at least three points the cubic Hermite interpolant with slopes from method 'steffen' follows the direction of the data on every segment other than the first and the last, and on all segments if the data strictly increase. For decreasing data and for a flat first segment the first and last segment do not follow the data, and two points raise IndexError. This holds under the conditions of the theorems; refuted beyond them: On the first and the last segment this fails for decreasing data (the end slopes get the wrong sign, even for points on a straight line) and for a flat first segment; two points are refused; Steffen slopes overshoot after a flat first segment; Steffen slopes of two points raise IndexError.", "quantifier": "all strictly increasing x and all y", "why_tests_cant": "A continuum of data and evaluation points; the existing tests use data for which the end slopes happen to be right.", "anchors": ["src/wafo/interpolate.py:_steffen_slope", "src/wafo/interpolate.py:slopes"]}
{"id": "C46", "title": "boole is exact for polynomials of degree five", "statement": "boole(y, x) on 4m+1 equidistant points (m >= 1) returns the exact integral of every polynomial of degree at most five. With another number of points it returns a wrong value without an error, even for a constant.", "quantifier": "all m, all polynomials of degree <= 5, all intervals", "why_tests_cant": "A continuum of coefficients and intervals and every number of points.", "anchors": ["src/wafo/integrate.py:boole"]}
{"id": "C47", "title": "Node expansion and interval map of the Gauss rules", "statement": "A Gauss rule built from the nodes on one side of the origin has n nodes and adds f(x)+f(-x) over them, with the middle node for odd n, for every n >= 2; for n = 1 the only node is duplicated and every integral comes out doubled. p_roots(n, a=, b=) carries a rule for [-1,1] to a rule of the same order for every interval. This holds under the conditions of the theorems; refuted beyond them: for n = 1 the node is duplicated: the one-point Gauss-Legendre rule, node 0 and weight 2, comes out with twice the weight.", "quantifier": "all n, all nodes and weights, all integrands, all intervals", "why_tests_cant": "Every n and every integrand; the smallest n is the one that breaks.", "anchors": ["src/wafo/integrate.py:_expand_roots", "src/wafo/integrate.py:p_roots"]}
{"id": "C48", "title": "HodrickPrescott minimises its objective", "statement": "For every series of at least four samples and every weight w >= 0, HodrickPrescott(w) returns a series of the same length that is strictly better than every other series for the objective sum (x - s)^2 + w sum (second difference of s)^2. Straight lines of any length are returned unchanged, the sum and first moment of the data are preserved and the roughness of the result is bounded by the distance of the data from any line. The linear system it solves always has exactly one solution. (Series of three samples are returned unchanged, which is not the minimiser: refuted.)", "quantifier": "all series, all w >= 0, all competitors, all solvers of linear systems", "why_tests_cant": "A continuum of coefficients and arguments and every degree.", "anchors": ["src/wafo/sg_filter/_core.py:HodrickPrescott"]}
{"id": "C49", "title": "The Kalman filter is the running mean without process noise, and updates with the optimal gain", "statement": "For the scalar constant model with R > 0, Q = 0 and no initial estimate, after k observations the Kalman estimate is their mean and the variance is R/k. For systems of every dimension the update keeps the covariance positive semidefinite and no other gain gives a smaller error covariance; sessions of any length succeed; started at the true state and fed exact observations the filter follows the system exactly. (reset() after a call does not restore the initial state: refuted.)", "quantifier": "all observation sequences, all systems of all dimensions, all gains", "why_tests_cant": "A continuum of coefficients and arguments and every degree.", "anchors": ["src/wafo/sg_filter/_core.py:Kalman"]}
{"id": "C50", "title": "HampelFilter replaces only outliers", "statement": "With fixed windows every output of HampelFilter is the input sample, or the median of the samples within dx of it, the latter exactly when the sample deviates from the median by more than t times 1.4826 times the median absolute deviation; with t = 0 it is the running median. With fixed or adaptive windows the output stays in the range of the data, and a change of units of the data changes the output accordingly. The adaptive search ends whenever n - 1 window steps cover the samples. (It raises IndexError otherwise, and a single sample without dx raises ValueError: refuted.)", "quantifier": "all signals, sample positions, window sizes and thresholds", "why_tests_cant": "A continuum of coefficients and arguments and every degree.", "anchors": ["src/wafo/sg_filter/_core.py:HampelFilter"]}
{"id": "C51", "title": "Linear binning conserves mass and first moment", "statement": "For data inside a d-dimensional equidistant grid, gridcount(data, X, y) returns at every node the sum over the observations of y times the product of the tent weights; the counts add up to sum(y), are non-negative for non-negative y, and every multilinear moment (in particular the mean) of the counts equals that of the data.", "quantifier": "all data sets, dimensions, grids with at least two nodes per axis and responses", "why_tests_cant": "A continuum of data and grids in every dimension.", "anchors": ["src/wafo/kdetools/gridding.py:gridcount"]}
{"id": "C52", "title": "gridcount on the boundary of the grid", "statement": "gridcount checks that the data lie in the closed box spanned by the grid, but an observation on the upper edge of the last dimension raises IndexError for every grid and data set, and one on the upper edge of another dimension can be counted twice; data in the half-open box never raise.", "quantifier": "all data sets and grids", "why_tests_cant": "The failing inputs are a set of measure zero.", "anchors": ["src/wafo/kdetools/gridding.py:gridcount"]}
{"id": "C53", "title": "accum partitions its input", "statement": "accum(accmap, a, func, size, fill) succeeds exactly when the sizes agree and every index denotes a cell, puts into each cell func of exactly the entries of a whose index denotes that cell in order (fill when there is none); every entry goes to exactly one cell and sums preserve the grand total. Without size the smallest shape is used. accumsum agrees with it when indices are within the shape, and returns a longer array (refuting the documented size) when they are not.", "quantifier": "all index arrays, values, reductions and shapes", "why_tests_cant": "The claim ranges over all signals of all lengths; a test fixes a handful of signals and cannot exclude a pattern of ties, plateaus or boundary samples that breaks it.", "anchors": ["src/wafo/kdetools/gridding.py:accum", "src/wafo/kdetools/gridding.py:accumsum"]}
{"id": "C54", "title": "confidence intervals of BKRegression are valid", "statement": "For every n >= 0, 0 <= p <= 1 and non-zero normal quantile the Wilson interval satisfies 0 <= plo <= p <= pup <= 1, consists of exactly the probabilities the score test does not reject, and shrinks with more trials or a lower confidence; the credible interval is ordered and stays in [0, 1].", "quantifier": "all n, p, alpha, quantile functions", "why_tests_cant": "A continuum of coefficients and arguments and every degree.", "anchors": ["src/wafo/kdetools/kdetools.py:BKRegression._wilson_score"]}
{"id": "C55", "title": "hyperbolic_ratio is the quotient", "statement": "hyperbolic_ratio(a, b, sa, sb) equals the quotient of the hyperbolic functions selected by the signs of sa and sb for every a and every b with non-zero denominator; where the denominator vanishes it is 1 for 0/0 and otherwise the infinity of the numerator's sign. No intermediate factor other than exp(|a|-|b|) exceeds 2.", "quantifier": "all real a, b and all signs", "why_tests_cant": "A continuum of coefficients and arguments and every degree.", "anchors": ["src/wafo/wave_theory/core.py:hyperbolic_ratio"]}
{"id": "C56", "title": "sensor types and ids are inverse", "statement": "sensor_type(sensor_typeid(name)) = name (in lower case) for every valid name in any letter case, and sensor_typeid(sensor_type(id)) = id for every valid id; lists are treated element by element; unknown ids give nan. The nan id of an unknown name is refused by sensor_type with a TypeError. This holds under the conditions of the theorems; refuted beyond them: the id of an unknown name is not accepted back.", "quantifier": "all ids and names", "why_tests_cant": "A table must be right on every entry.", "anchors": ["src/wafo/wave_theory/core.py:sensor_type", "src/wafo/wave_theory/core.py:sensor_typeid"]}
{"id": "C57", "title": "Dispersion relation", "statement": "k2w returns the frequency and direction of a wave number vector; w2k and k2w are inverse in deep water. For any depth w2k always returns one wave number per entry, of the frequency's sign and direction, and whenever it does not warn each satisfies w^2 = g k tanh(k h) within the requested tolerance; exactly one positive wave number satisfies it exactly and the returned one is as close to it as the tolerance says. For empty input both return one array although two are unpacked.", "quantifier": "all frequencies, depths and directions", "why_tests_cant": "A continuum of coefficients and arguments and every degree.", "anchors": ["src/wafo/wave_theory/dispersion_relation.py:w2k", "src/wafo/wave_theory/dispersion_relation.py:k2w"]}
{"id": "C58", "title": "Linear and Ochi transformations round-trip", "statement": "For TrLinear with non-zero sigmas and for TrOchi, gauss2dat(dat2gauss(x)) = x for every record x, and gauss2dat returns a finite value exactly where a preimage exists, which it then is; both transformations are the documented formulas, strictly increasing and continuous; TrLinear transforms derivatives consistently and has distance 0 from the Gaussian model. Changing the skewness of a TrOchi object has no effect (refuted: it keeps using the old parameters).", "quantifier": "all parameters and points", "why_tests_cant": "A continuum of coefficients and arguments and every degree.", "anchors": ["src/wafo/transform/models.py:TrLinear", "src/wafo/transform/models.py:TrOchi"]}
{"id": "C59", "title": "Ochi parameters solve the moment equations", "statement": "TrOchi accepts exactly the skewnesses of absolute value up to 2.82842712474619; the one-dimensional equation it solves has exactly one root in the search interval; the parameters a and sigma2 satisfy the documented variance and skewness equations with a of the sign of the skewness. The documented equation for mean2 is satisfied for no non-zero skewness (refuted): the stored value is a/2 times its smaller solution.", "quantifier": "all admissible skewness values", "why_tests_cant": "A continuum of coefficients and arguments and every degree.", "anchors": ["src/wafo/transform/models.py:TrOchi._par_from_stats"]}
{"id": "C60", "title": "Hermite transformation", "statement": "Whenever TrHermite is constructed without a limit, dat2gauss and gauss2dat are defined for every value, inverse to each other and strictly increasing, and one of them is the documented polynomial with the documented coefficients; the softening model has mean 0 and variance 1 in normalised units. If the polynomial has a cubic term the constructor either does this or raises TypeError, the latter whenever the polynomial is not strictly increasing. Without a cubic term the solution on the increasing branch is returned; the check for values beyond the limit only sees the first and last value (refuted) and compares unscaled values with a scaled limit (refuted).", "quantifier": "all parameters, all points", "why_tests_cant": "A continuum of coefficients and arguments and every degree.", "anchors": ["src/wafo/transform/models.py:TrHermite._solve_third_order"]}
{"id": "C61", "title": "decluster keeps separated peaks", "statement": "Among the exceedances of one cluster, the kept peaks are pairwise more than tmin apart in time, and every dropped exceedance is within tmin of a kept one that is at least as high; this holds for every way argsort may order ties.", "quantifier": "all exceedance sequences", "why_tests_cant": "The claim ranges over all signals of all lengths; a test fixes a handful of signals and cannot exclude a pattern of ties, plateaus or boundary samples that breaks it.", "anchors": ["src/wafo/stats/core.py:_find_ok_peaks", "src/wafo/stats/core.py:findpot"]}
{"id": "C62", "title": "findpot declusters one cluster, and what it does with more", "statement": "findpot never raises on equally long data and times and returns distinct indices of exceedances. If the short gaps between consecutive exceedances form at most one run, any two returned exceedances are more than tmin apart and every dropped one is within tmin of a returned one at least as high. With more clusters the documented behaviour is false: the last exceedance of the first cluster is always returned, and no exceedance of the third or a later cluster is.", "quantifier": "all signals, time vectors, thresholds and tmin, all tie orders of argsort", "why_tests_cant": "The claim ranges over all signals of all lengths; a test fixes a handful of signals and cannot exclude a pattern of ties, plateaus or boundary samples that breaks it.", "anchors": ["src/wafo/stats/core.py:findpot", "src/wafo/stats/core.py:_remove_index_to_data_too_close_to_each_other"]}
{"id": "C63", "title": "Return periods round-trip", "statement": "For positive rates, returnperiod2sf inverts sf2returnperiod for every exceedance probability in [0,1) (including 0, whose period is inf), and sf2returnperiod inverts returnperiod2sf for every period longer than one event; nan is returned exactly for the stated domain violations, longer periods have smaller probabilities, entries are independent. The period of exactly one event maps to 1, which maps to nan; scalars and integer arrays raise. This holds under the conditions of the theorems; refuted beyond them: the shortest meaningful period, one event, does not survive the round trip: its probability 1 is refused; scalars and integer arrays, which the documentation allows, raise.", "quantifier": "all periods and rates", "why_tests_cant": "A continuum of coefficients and arguments and every degree.", "anchors": ["src/wafo/stats/core.py:returnperiod2sf", "src/wafo/stats/core.py:sf2returnperiod"]}
{"id": "C64", "title": "What the covariance estimate is", "statement": "For a series without missing values the estimate at lag k is the window times the mean lagged product of the de-meaned series continued periodically (period: the next power of two N); it equals the biased estimate (1/n) sum x[j] x[j+k] whenever k + n <= N, is the variance at lag 0 and largest there, does not change when a constant is added, scales with the square of a factor, is 0 at the last lag, and carries Bartlett's deviations. The claim that it is the biased estimate at every lag fails for every length that is a power of two, and with missing values the series is centred at a mixture of its first two values.", "quantifier": "all series of at least three values, all lags, windows and time steps", "why_tests_cant": "Wrap-around contamination only shows when the length is close to a power of two.", "anchors": ["src/wafo/covariance/estimation.py:CovarianceEstimator.tocovdata"]}
{"id": "C65", "title": "The unbiased estimate is never available", "statement": "CovarianceEstimator(flag=\"unbiased\") raises for every series without missing values (of at least three values with any window, of any length with a named window): the claim that it returns an estimate is false.", "quantifier": "all series, options and windows", "why_tests_cant": "All lengths.", "anchors": ["src/wafo/covariance/estimation.py:CovarianceEstimator.tocovdata"]}
{"id": "C66", "title": "lfind, narg_smallest and argsreduce", "statement": "lfind yields all positions of the needle in increasing order, or the first maxiter of them; narg_smallest(arr, n) returns min(n, size) distinct positions in ascending order of value such that no other position holds a smaller value (a negative n leaves out the -n largest); argsreduce keeps of every argument, broadcast if it is a scalar, the elements where the condition holds, and raises ValueError when lengths do not match.", "quantifier": "all lists, needles, limits; all arrays and any argsort order of equal values; all conditions and argument lists", "why_tests_cant": "unit tests use a handful of lists; ties, limits of zero and arguments of every length cannot be enumerated", "anchors": ["src/wafo/misc.py:lfind", "src/wafo/misc.py:narg_smallest", "src/wafo/misc.py:argsreduce"]}
{"id": "C67", "title": "piecewise, lazywhere and lazyselect choose the right branch", "statement": "piecewise gives at each element the value of the last function whose condition holds, otherwise the fill value or the extra last function, and rejects other numbers of functions; lazywhere gives f where the condition holds and the fill value or f2 elsewhere, and rejects giving both or neither; lazyselect gives the value of the last choice whose condition holds - not, as np.select which it claims to mimic, the first. With an integer fill value lazywhere truncates the values of f. This holds under the conditions of the theorems; refuted beyond them: the result takes the type of the fill value: with an integer fill value the values of f lose their fractions (numbers counted in halves: f returns 3/2 and the result holds 1); so it does not mimic np.select, which takes the first.", "quantifier": "all numbers of conditions (overlapping or not), all arrays and elementwise functions", "why_tests_cant": "tests use disjoint conditions, for which first and last agree", "anchors": ["src/wafo/misc.py:piecewise", "src/wafo/misc.py:lazywhere", "src/wafo/misc.py:lazyselect"]}
{"id": "C68", "title": "Rotation is orthogonal", "statement": "rotation_matrix returns an orthogonal matrix with determinant 1 for all angles; rotate is roll about x, then pitch about y, then heading about z, and preserves inner products; rotate_2d is rotate with a heading only, preserves lengths, composes by adding angles and turns counter clockwise.", "quantifier": "all real angles and points", "why_tests_cant": "tests use multiples of 90 degrees", "anchors": ["src/wafo/misc.py:rotation_matrix", "src/wafo/misc.py:rotate", "src/wafo/misc.py:rotate_2d"]}
{"id": "C69", "title": "Index conversions are inverse", "statement": "For all shapes and both orders sub2index gives the position of the element (row-major or column-major), index2sub its subscripts, each raises ValueError outside the array, and the two are mutually inverse.", "quantifier": "all shapes, subscripts, indices, orders", "why_tests_cant": "shapes and indices are unbounded", "anchors": ["src/wafo/misc.py:index2sub", "src/wafo/misc.py:sub2index"]}
{"id": "C70", "title": "moving_average and detrendma", "statement": "moving_average(x, L) returns the overall mean for fewer than 2L+1 samples; otherwise the mean of the first 2L+1 samples up to position L, then at i the mean of the 2L samples i-L+1..i+L plus a constant given by the first 2L+1 samples, and repeats the last inner value. For a straight line the inner values are the line. In general they are not the mean of the 2L+1 surrounding samples, and integer input truncates them. detrendma subtracts this average. This holds under the conditions of the theorems; refuted beyond them: C70 fails in general: inner values are not the mean of the 2L+1 surrounding samples; here a large first sample stays in the average although all surrounding samples are zero; C70 fails for integer input too: the result has the type of the input, so averages are truncated.", "quantifier": "all series and window sizes", "why_tests_cant": "the tests use series on which the error is invisible (lines) or below their tolerance", "anchors": ["src/wafo/misc.py:moving_average", "src/wafo/misc.py:detrendma"]}
{"id": "C71", "title": "findoutliers", "statement": "findoutliers reports, in increasing order, exactly the samples after a step larger than dcrit, before a step below -dcrit, the same for second differences, in runs of equal values or next to the ends of a run; the two lists returned cover all samples and are disjoint unless exactly one sample is reported, in which case that sample can be in both. Missing samples are treated as zeros (except when the first is the only one) and can be classified as good. Fewer than three samples raise ValueError.", "quantifier": "all series, with and without missing samples, all thresholds", "why_tests_cant": "the combinations of jumps and runs are unbounded", "anchors": ["src/wafo/misc.py:findoutliers"]}
{"id": "C72", "title": "parse_kwargs and sub_dict_select", "statement": "sub_dict_select keeps exactly the entries whose key is listed; parse_kwargs keeps the option keys in their order, never adds one, and takes over every keyword argument that is one of them.", "quantifier": "all dictionaries and key lists", "why_tests_cant": "dictionaries are unbounded", "anchors": ["src/wafo/misc.py:parse_kwargs", "src/wafo/misc.py:sub_dict_select"]}
{"id": "C73", "title": "nextpow2", "statement": "nextpow2(x) is the smallest integer m with 2**m >= |x| for x != 0, 0 for x = 0, and that of the length for a vector of two or more elements.", "quantifier": "all real numbers and vectors", "why_tests_cant": "tests check single numbers", "anchors": ["src/wafo/misc.py:nextpow2"]}
{"id": "C74", "title": "Padua point counts", "statement": "padua_points(n, domain) returns (n+1)(n+2)/2 distinct points, the nodes (cos(j pi/n), cos(i pi/(n+1))) with i+j odd mapped into the rectangle; padua_fit for n >= 1 returns an (n+1) by (n+1) matrix whose entries with k+l > n are zero, so exactly as many coefficients as points remain, and values at the points and coefficients determine each other. For n = 0 padua_fit raises IndexError. This holds under the conditions of the theorems; refuted beyond them: padua_fit fails for the single point of degree 0.", "quantifier": "all degrees n, rectangles and functions", "why_tests_cant": "All n, all functions.", "anchors": ["src/wafo/padua.py:padua_points", "src/wafo/padua.py:_find_m", "src/wafo/padua.py:padua_fit"]}
{"id": "C75", "title": "shiftdim moves leading axes", "statement": "shiftdim(x, n) for n >= 0 permutes the axes cyclically by n: the shape and every index tuple are shifted n places to the left; shifts compose, have period ndim and are undone by shifting by ndim - n. Negative n adds -n leading singleton axes; n=None removes the leading singleton axes and is undone by the matching negative shift, except that an array whose axes all have length one is returned unchanged.", "quantifier": "all arrays of all ranks and all n", "why_tests_cant": "All ranks and shapes.", "anchors": ["src/wafo/dctpack.py:shiftdim", "src/wafo/dctpack.py:num_leading_ones", "src/wafo/dctpack.py:no_leading_ones"]}
{"id": "C76", "title": "Which arrays of the caller are changed", "statement": "Lists and tuples given to edf, smoothn and simcond are never changed, edfcnd changes nothing, and the errors for negative weights, for indices outside of the data and for levels outside of the range leave the arguments as they were. That arrays of floats are left unchanged is refuted, and this is what happens to them: edf sorts the array, so it is unchanged exactly if it is in order; smoothn replaces the values that are not finite by 0 and keeps the others; simcond with i_unknown sets these observations to nan and keeps the others, and with method='exact' and few covariances it multiplies the first covariance of the object by 1.00001, at every call; mctp2tc divides every row of f_Mm with nonzero sum by its sum and keeps the others; tospecdata with a nugget adds it to the object, at every call, and changes nothing without.", "quantifier": "all vectors, matrices, weights, indices and methods, as arrays or as lists", "why_tests_cant": "Aliasing depends on the input type and value.", "anchors": ["src/wafo/sg_filter/_core.py:SmoothNd", "src/wafo/sg_filter/_core.py:_Filter", "src/wafo/stats/core.py:edf", "src/wafo/stats/core.py:edfcnd", "src/wafo/covariance/core.py:CovData1D.simcond", "src/wafo/covariance/core.py:CovData1D.tospecdata", "src/wafo/markov.py:mctp2tc"]}
{"id": "C77", "title": "Iterative min-Max matrix estimate", "statement": "For every rainflow operator, matrix, start value, number of iterations k >= 1 and tolerance, the matrix returned by iter_ / iter_mc is non-negative, the second result is the rainflow matrix of the first, and a non-negative start matrix whose rainflow matrix already is the given one is returned unchanged.", "quantifier": "all matrices, operators, start values, iteration counts and tolerances", "why_tests_cant": "The iteration may stop anywhere; the guarantee has to hold for every history of iterates.", "anchors": ["src/wafo/markov.py:iter_", "src/wafo/markov.py:iter_mc", "src/wafo/markov.py:_raw_iter"]}
{"id": "C78", "title": "Which entries of the test matrix are zero", "statement": "For every size and number of sub-diagonals, mktestmat fills exactly the documented part of the matrix; documented: numsubzero=0 means that only the diagonal is zero, which is false (the diagonal is filled and the last row is empty).", "quantifier": "all matrix sizes and all numsubzero >= 0", "why_tests_cant": "All sizes.", "anchors": ["src/wafo/markov.py:mktestmat"]}
{"id": "C79", "title": "orthofit is the least squares polynomial", "statement": "For every data set with more than n distinct abscissae, orthoval(orthofit(x, y, n), .) is a polynomial of degree at most n and no polynomial of degree at most n has a smaller sum of squared errors at the data points.", "quantifier": "all data sets, all degrees, all competing polynomials", "why_tests_cant": "Optimality is a statement about every competing polynomial and every data set.", "anchors": ["src/wafo/polynomial.py:orthofit", "src/wafo/polynomial.py:orthoval"]}
{"id": "C80", "title": "Cheb1d objects", "statement": "Cheb1d(ck, a, b, kind)(x) equals chebval(x, ck, a, b, kind) whenever the last (order zero) coefficient is non-zero; with a trailing zero the object represents another function, and negation, addition, subtraction, integ and deriv always raise.", "quantifier": "all coefficient lists, intervals, kinds and points", "why_tests_cant": "A continuum of coefficients and arguments and every degree.", "anchors": ["src/wafo/polynomial.py:Cheb1d"]}
{"id": "C81", "title": "linear_extrapolate continues with the tangent lines", "statement": "For every piecewise polynomial of degree at least two, linear_extrapolate() leaves the values between the breaks unchanged and continues with the tangent at the first and the last break. Not true for degree one or zero (nothing is extrapolated) and not true of the derivative() of the result (zero beyond one unit).", "quantifier": "all piecewise polynomials and all points", "why_tests_cant": "A continuum of coefficients and arguments and every degree.", "anchors": ["src/wafo/interpolate.py:PPform.linear_extrapolate"]}
{"id": "C82", "title": "Slope estimation is exact on straight lines and, for method parabola, on parabolas", "statement": "For three or more points on a straight line every slope method (cardinal with tension 0, Steffen for lines that do not fall) returns the slope of the line at every point, on any grid; for points on a parabola method 'parabola' returns the exact derivative at every point including the ends. With two points 'parabola' and 'stineman' return slopes different from that of the line. This holds under the conditions of the theorems; refuted beyond them: with two points, which always are on a line, 'parabola' and 'stineman' return other slopes.", "quantifier": "all grids of at least three points, all lines, all parabolas", "why_tests_cant": "All grids and all coefficients.", "anchors": ["src/wafo/interpolate.py:slopes", "src/wafo/interpolate.py:_parabola_slope", "src/wafo/interpolate.py:_akima_slope", "src/wafo/interpolate.py:_stineman_slope", "src/wafo/interpolate.py:_catmull_rom_slope", "src/wafo/interpolate.py:_secant_slope", "src/wafo/interpolate.py:_fritsch_carlson_slope"]}
{"id": "C83", "title": "slopes(..., monotone=True) only shrinks slopes and restores the shape of isolated steep segments", "statement": "With monotone=True every returned slope is the slope returned with monotone=False multiplied by a number between 0 and 1; if these have the sign of the data on both sides and no two neighbouring segments both leave the circle of radius 3 of Fritsch and Carlson, the cubic Hermite interpolant follows the data on every segment. If one of the two conditions fails, the interpolant of increasing data may decrease.", "quantifier": "all methods, all data sets", "why_tests_cant": "All data sets and a continuum of evaluation points; the failure needs two neighbouring steep segments.", "anchors": ["src/wafo/interpolate.py:slopes"]}
{"id": "C84", "title": "Stineman interpolation is bounded by the tangents and preserves convexity and monotonicity", "statement": "Stineman interpolation with any slopes passes through the data, and between two neighbouring points it differs from the straight line by at most the smaller of the deviations of the two tangents. With Stineman's own slopes three or more points with increasing chord slopes give a convex curve, which is strictly increasing (decreasing) if the data are; with slopes from parabolas the curve is convex as well but increasing data may give a curve that decreases at first. Two points do not give a straight line. This holds under the conditions of the theorems; refuted beyond them: ... but not an increasing curve for increasing data, and two points do not give a straight line; Stineman interpolation of two points is not the straight line.", "quantifier": "all strictly increasing x, all y, all slopes, all evaluation points", "why_tests_cant": "Convexity is a statement about all triples of points of a continuum and all data sets.", "anchors": ["src/wafo/interpolate.py:stineman_interp", "src/wafo/interpolate.py:StinemanInterp", "src/wafo/interpolate.py:_stineman_slope"]}
{"id": "C85", "title": "Polar coordinates and points on a line", "statement": "cart2polar followed by polar2cart is the identity, with a non-negative radius and an angle in (-pi, pi]; polar2cart followed by cart2polar is the identity for positive radius and such angles; spaceline(start, stop, num) has num points dividing the segment evenly from start to stop, and the midpoint for num <= 1.", "quantifier": "all points, angles, radii, dimensions and counts", "why_tests_cant": "all quadrants, signs and dimensions", "anchors": ["src/wafo/misc.py:polar2cart", "src/wafo/misc.py:cart2polar", "src/wafo/misc.py:spaceline"]}
{"id": "C86", "title": "Gauss rules with square-root weights are exact", "statement": "qrule(n, wfun) for wfun 5, 6, 7, 8, 9 returns n nodes and weights that integrate every polynomial of degree at most 2n-1 exactly against the weight functions 1/sqrt((x+1)(1-x)), sqrt((x+1)(1-x)), sqrt(x/(1-x)), 1/sqrt(1-x), sqrt(1-x) (for 8 and 9: given the Gauss-Legendre rule they are built from).", "quantifier": "all n >= 1, all polynomials of degree <= 2n-1", "why_tests_cant": "Every n and a continuum of polynomials.", "anchors": ["src/wafo/integrate.py:q5_roots", "src/wafo/integrate.py:q6_roots", "src/wafo/integrate.py:q7_roots", "src/wafo/integrate.py:q8_roots", "src/wafo/integrate.py:q9_roots", "src/wafo/integrate.py:qrule"]}
{"id": "C87", "title": "clencurt is exact for polynomials up to degree 2n+1", "statement": "clencurt(fun, a, b, n) returns the exact integral of every polynomial of degree at most 2n+1 over every interval; an integrand that returns integers is truncated at the two ends of the interval and its integral is wrong.", "quantifier": "all n >= 1, all polynomials of degree <= 2n+1, all intervals", "why_tests_cant": "Every n and a continuum of polynomials and intervals.", "anchors": ["src/wafo/integrate.py:clencurt"]}
{"id": "C88", "title": "gaussq integrates cubics exactly", "statement": "gaussq(fun, a, b, wfun=...) returns the exact integral of every polynomial of degree at most 3 against the documented weight function over every finite interval, with reported error 0, whatever the tolerances (wfun 1, 5..9, given exact Gauss rules); for wfun=4 the exponents alpha and beta are exchanged with respect to the documentation, and an integrand with integer values is integrated in integer arithmetic and gives a wrong value with error 0.", "quantifier": "all weights, intervals, tolerances, iteration limits and polynomials of degree <= 3 (degree <= 2n-1 for one estimate with n nodes)", "why_tests_cant": "A continuum of intervals, polynomials and tolerances.", "anchors": ["src/wafo/integrate.py:gaussq", "src/wafo/integrate.py:_Gaussq"]}
{"id": "C89", "title": "gaussq is elementwise", "statement": "A vectorised call of gaussq over many intervals (and integrands) gives each entry exactly the value and error of a separate call for that entry, although converged entries leave the working set at different times.", "quantifier": "all lists of integrands and intervals, all tolerances and iteration limits", "why_tests_cant": "All combinations of convergence times.", "anchors": ["src/wafo/integrate.py:gaussq", "src/wafo/integrate.py:_Gaussq"]}
{"id": "C90", "title": "gaussq does not depend on earlier calls", "statement": "The nodes and weights used by gaussq are those of the requested weight function and shape parameters whatever calls were made before, if the shape parameters have at most six significant digits; with more digits the rule of an earlier call is silently reused. This holds under the conditions of the theorems; refuted beyond them: with more decimals the rule of an earlier call is used: alpha = 1.0000002 after alpha = 1.0000001.", "quantifier": "all histories of calls, all rules", "why_tests_cant": "All histories of the shared cache.", "anchors": ["src/wafo/integrate.py:_Gaussq", "src/wafo/integrate.py:gaussq"]}
{"id": "C91", "title": "The error reported by gaussq is meaningful", "statement": "If the integrand is never NaN and the reported error is below 1e100, the value is one of the estimates, the error is its difference from the previous estimate, and unless the iteration limit was reached it is within the tolerance; a NaN at one node is instead reported as convergence with error 0.", "quantifier": "all integrands, rules, tolerances and iteration limits", "why_tests_cant": "All integrands and stopping times.", "anchors": ["src/wafo/integrate.py:gaussq", "src/wafo/integrate.py:_Gaussq"]}
{"id": "C92", "title": "quadgr is exact for polynomials and antisymmetric", "statement": "quadgr(fun, a, b) returns the exact integral of every polynomial that its panel rule integrates exactly, for every finite interval in either direction; quadgr(fun, b, a) is minus quadgr(fun, a, b); before extrapolation the value is the composite rule on 2^k panels. One iteration raises UnboundLocalError, integer integrands raise ValueError and tolerance 0 gives NaN. This holds under the conditions of the theorems; refuted beyond them: one iteration, integer integrands and tolerance 0; quadgr raises ValueError for integer valued integrands; quadgr with tolerance zero returns nan for polynomials it integrates exactly.", "quantifier": "all rules, polynomials, intervals, tolerances and iteration limits", "why_tests_cant": "A continuum of intervals and polynomials.", "anchors": ["src/wafo/integrate.py:quadgr", "src/wafo/integrate.py:_Quadgr"]}
{"id": "C93", "title": "quadgr with infinite limits", "statement": "quadgr over [a, inf), (-inf, b] and the whole line returns the exact improper integral of every function that the change of variable x = a + t/(1-t) (respectively b + t/(1+t)) turns into a polynomial of the degree of the rule.", "quantifier": "all such functions, limits, tolerances and iteration limits", "why_tests_cant": "A continuum of integrands and limits.", "anchors": ["src/wafo/integrate.py:quadgr", "src/wafo/integrate.py:_Quadgr"]}
{"id": "C94", "title": "Richardson extrapolation", "statement": "richardson(Q, k) returns the limit of every geometrically converging sequence with ratio at most 100/107, and never moves the last value by more than 100/7 times the last step.", "quantifier": "all sequences, limits, ratios and indices", "why_tests_cant": "A continuum of sequences.", "anchors": ["src/wafo/integrate.py:richardson"]}
{"id": "C95", "title": "romberg tableau is exact", "statement": "The i-th diagonal entry of the table of romberg integrates polynomials of degree at most 2i+1 exactly over every interval, the returned value is the extrapolation of three consecutive ones and its error estimate is within the tolerance; for intervals of length between 6e-9 and 1.5 romberg raises TypeError instead. This holds under the conditions of the theorems; refuted beyond them: for intervals no longer than 1.5 it raises TypeError whatever the integrand: the size of the table is a float.", "quantifier": "all polynomials, intervals, table positions, tolerances", "why_tests_cant": "All table sizes and a continuum of polynomials.", "anchors": ["src/wafo/integrate.py:romberg"]}
{"id": "C96", "title": "the density estimate at a point does not depend on the other points", "statement": "Evaluating a KDE at a list of points gives at every point the kernel estimate (or r-th moment) there, whichever of the two loops is chosen by the number of points, for any dimension, bandwidth matrix, local bandwidth factors and response; a point of another dimension raises ValueError.", "quantifier": "all data sets, dimensions, bandwidth matrices, kernels, responses, points", "why_tests_cant": "The branch is chosen by the relative sizes, and the inputs form a continuum of every size.", "anchors": ["src/wafo/kdetools/kdetools.py:KDE.eval_points", "src/wafo/kdetools/kdetools.py:KDE._loop_over_data", "src/wafo/kdetools/kdetools.py:KDE._loop_over_points"]}
{"id": "C97", "title": "fast grid evaluation equals the direct estimate", "statement": "The FFT evaluation on a uniform grid has no wrap-around: it equals the direct estimate when the data lie on nodes, and otherwise differs by at most the Lipschitz constant of the kernel times the step over twice the bandwidth and norm, once the kernel is sampled well enough.", "quantifier": "all kernels, bandwidths, uniform grids, data inside the grid, responses, moments", "why_tests_cant": "All grid lengths and a continuum of data.", "anchors": ["src/wafo/kdetools/kdetools.py:KDE._eval_grid_fast", "src/wafo/kdetools/kdetools.py:KDE._kernel_weights"]}
{"id": "C98", "title": "kernel regression is a local weighted least-squares fit", "statement": "KRegression with p=1 returns the value at x of the line minimising the kernel weighted squared error, so it reproduces straight lines; with p=0 it stays between the responses.", "quantifier": "all data, responses, bandwidths, non-negative kernels, evaluation points", "why_tests_cant": "Optimality is over a continuum of lines for every data set.", "anchors": ["src/wafo/kdetools/kdetools.py:KRegression"]}
{"id": "C99", "title": "binned empirical probabilities", "statement": "get_grid covers all data with a margin of hs_e and a step of at most hs_e; prb_empirical on it never raises and returns at each node the fraction of successes among the linearly binned observations, a number in [0, 1].", "quantifier": "all data sets, responses and bandwidths", "why_tests_cant": "All data sets of every length.", "anchors": ["src/wafo/kdetools/kdetools.py:BKRegression.get_grid", "src/wafo/kdetools/kdetools.py:BKRegression.prb_empirical"]}
{"id": "C100", "title": "Extremal index and declustering time", "statement": "The interexceedance times are the nonnegative gaps between the sorted times, one fewer than the times, and add up to the range. For integer-valued times the extremal index is in [0,1] and the declustering time is one of the gaps, exceeded by at most n times the index many gaps; fewer than two times give nan. For non-integer times the index can be negative and the declustering time raises IndexError. This holds under the conditions of the theorems; refuted beyond them: for times that are not integers the index can be negative and the function raises.", "quantifier": "all lists of times", "why_tests_cant": "The claim ranges over all lists of all lengths; the estimator switches formula with the largest gap and the index into the sorted gaps depends on it.", "anchors": ["src/wafo/stats/core.py:extremal_idx", "src/wafo/stats/core.py:declustering_time", "src/wafo/stats/core.py:interexceedance_times"]}
{"id": "C101", "title": "Empirical distribution function", "statement": "edf returns the sorted data and plotting positions that strictly increase in (0,1]; at the last of equal values the position differs by at most 1/(n+1) from the fraction of the data at or below that value, and equals it for method 3; edfcnd is edf of the data at or above the condition, which by default is all of the data.", "quantifier": "all samples and all methods", "why_tests_cant": "Every sample of every size with every pattern of ties.", "anchors": ["src/wafo/stats/core.py:edf", "src/wafo/stats/core.py:edfcnd"]}
{"id": "C102", "title": "Mean residual life and dispersion index", "statement": "For each threshold the reported number is the number of exceedances and the reported mean times that number is the total excess; for distinct data each default threshold is exceeded by at least nmin-1 values, while ties give a mean of nothing. The dispersion index is the variance over the mean of the numbers of exceedances per time block, where the blocks cover all times. This holds under the conditions of the theorems; refuted beyond them: with ties the last mean residual life can be the mean of nothing.", "quantifier": "all samples, times, thresholds and block lengths", "why_tests_cant": "Every sample of every size with every pattern of ties and block boundaries.", "anchors": ["src/wafo/stats/core.py:reslife", "src/wafo/stats/core.py:dispersion_idx", "src/wafo/stats/core.py:_check_umin_umax"]}
{"id": "C103", "title": "Transfer functions are those of linear wave theory", "statement": "For every one of the 18 sensor types, every frequency, direction, position and finite depth, Hw is non-negative and Hw*Gwt*exp(-iwt) is what that sensor reads in a plane linear wave; the readings of different sensors are consistent: accelerations are time derivatives of velocities, velocities of displacements, slopes and curvatures are space derivatives of the elevation, the velocity field is incompressible and irrotational, obeys the linear momentum equation with the pressure when the wave number solves the dispersion relation, has no vertical velocity at the bottom and moves with the surface. With the default infinite depth all sub-surface transfer functions are zero; a negative Hw raises IndexError; sensor ids in place of names raise KeyError. This holds under the conditions of the theorems; refuted beyond them: with the default water depth, infinity, all transfer functions below the surface are zero; a negative Hw, whose sign should move to Gwt, raises; integer sensor ids, documented as accepted, raise KeyError.", "quantifier": "all sensors, frequencies, wave numbers, directions, positions, depths, igam, times", "why_tests_cant": "A continuum of waves and positions, and relations between derivatives of different outputs.", "anchors": ["src/wafo/wave_theory/core.py:TransferFunction.tran", "src/wafo/wave_theory/core.py:wave_pressure"]}
{"id": "C104", "title": "Table transformations interpolate linearly and obey the chain rule inside the table", "statement": "tranproc(x, f, x0, x1, ..., xn): for an evenly spaced table with step above 1e-7 and points inside the table the first result is the linear interpolant; an unevenly spaced table is resampled evenly with the same number of points; values stay between the smallest and largest table value, increasing tables give increasing results, tables of a line are reproduced exactly together with all derivatives, the rows may come in any order, the first three derivatives follow the chain rule with central differences, and repeated x values raise ValueError. Not so: the fourth derivative has x1*x2 in place of x1*x3, one point above the table moves every value, a point just below the table gets a mixture of the last and the first value, the points of an unevenly spaced table do not get their own values, and a table finer than 1e-7 raises IndexError. TrData of a line has the right mean and standard deviation and its two directions undo each other. This holds under the conditions of the theorems; refuted beyond them: the fourth derivative uses x1 x2 where the chain rule has x1 x3; not so: a fine table, points outside the table, the points of an unevenly spaced table; tranproc above its table returns values of a stretched table, not the extrapolated line; tranproc below its table interpolates between the first and the last table value; tranproc of an uneven table does not return the table values at the table points.", "quantifier": "all tables, all points, all derivative records of up to four orders", "why_tests_cant": "the docstring example even records one of the wrong values at the end of the table; only a statement about all tables and points separates where the interpolation is right from where it is not", "anchors": ["src/wafo/misc.py: trangood, tranproc", "src/wafo/transform/core.py: TrData"]}
{"id": "C105", "title": "tocovdata gives the covariance function of the spectrum and its derivatives", "statement": "SpecData1D.tocovdata(nr, nt, rate) of a spectrum on equally spaced frequencies from zero: value k of the result is the trapezoidal integral of S(w) cos(w t_k), where t_k = 2 pi k / (dw N) with N the interpolation rate (a power of two at most 16) times the smallest power of two not below 2n-2; the derivative fields Rt, Rtt, ... are the exact derivatives of that function at t_k, for every order; the first value is the integral of the spectrum, and no value exceeds it in size when the spectrum is nonnegative. A first frequency above zero, and frequencies whose second difference exceeds 1e-8, raise ValueError.", "quantifier": "all spectra, frequency units, numbers of points, numbers of derivatives, rates and lags", "why_tests_cant": "the example compares one Jonswap spectrum with itself; zero padding, mirror image and normalization interact for every length and rate", "anchors": ["src/wafo/spectrum/core.py: SpecData1D.tocovdata"]}
{"id": "C106", "title": "Spectrum and covariance function determine each other", "statement": "CovData1D.tospecdata of covariances at equally spaced lags: value l is the trapezoidal cosine integral 2/pi int R(t) cos(w_l t) dt, clipped at zero, set to zero where it is below trunc times the largest, at N/2+1 equally spaced frequencies up to pi/dt. When the number of points is one more than a power of two, tospecdata undoes tocovdata for every nonnegative spectrum above the truncation limit (in rad/s), and tocovdata undoes tospecdata for every covariance function with nonnegative density. For every other number of points the spectrum that comes back has more frequencies than the original one. This holds under the conditions of the theorems; refuted beyond them: for every other number of frequencies the spectrum that comes back has more frequencies.", "quantifier": "all equally spaced spectra and covariance functions, all rates and truncation limits", "why_tests_cant": "the docstring example happens to have 257 points; for other lengths the round trip changes the grid", "anchors": ["src/wafo/covariance/core.py: CovData1D.tospecdata", "src/wafo/spectrum/core.py: SpecData1D.tocovdata"]}
{"id": "C107", "title": "Changing the frequency unit changes nothing physical", "statement": "Setting freqtype between rad/s and Hz and back restores the spectrum; the power S df of every bin, the angular frequencies, and the covariance function with all derivatives, lags and rates are the same in both units.", "quantifier": "all equally spaced spectra, all options of tocovdata", "why_tests_cant": "scaling by 2 pi must cancel in every formula for every spectrum", "anchors": ["src/wafo/spectrum/core.py: SpecData1D.freqtype, tocovdata"]}
{"id": "C108", "title": "Spectral moments", "statement": "SpecData1D.moment returns the moments of order 0, 1, ..., nr (or only the even orders) of |S|^(j+1) by Simpson's rule: exact for integrands that are quadratic between an odd number of frequencies, or linear; the same whether the spectrum is given per Hz or per rad/s; homogeneous in the spectrum; non-negative and satisfying the Cauchy-Schwarz inequality on an even axis; the names give the order and the kind of axis.", "quantifier": "all spectra, frequency units, orders, j and axes with increasing frequencies", "why_tests_cant": "it is a family of identities and inequalities over arbitrary spectra and axes", "anchors": ["src/wafo/spectrum/core.py:SpecData1D.moment"]}
{"id": "C109", "title": "Bandwidth parameters and normalisation", "statement": "bandwidth returns alpha, eps2, eps4 and Qp by index or name with alpha in [0,1] and alpha^2+eps4^2=1, independent of the unit; normalize gives m0 = m2 = 1 (refuted: the name eps4 returns Qp, the default argument raises TypeError, normalize of a spectrum in Hz gives m2 = 1/(4 pi^2), a wave number spectrum is not normalised).", "quantifier": "all spectra, selections of factors and units", "why_tests_cant": "bounds and identities over all spectra; tests use one spectrum", "anchors": ["src/wafo/spectrum/core.py:SpecData1D.bandwidth", "src/wafo/spectrum/core.py:SpecData1D.normalize"]}
{"id": "C110", "title": "Wave characteristics and their covariances", "statement": "characteristic returns the documented functions of the spectral moments, chosen by number or by name in any case, an error for unknown ones, and the table of covariances that the delta method (first order Taylor expansion) gives: exact for the nine variances and Cov(Tm01, Tm02), symmetric; refuted: Cov(Hm0, Tm01) and Cov(Hm0, Tm02) are stored one column too far to the right, and the peak period of a spectrum in Hz is 2 pi times too long.", "quantifier": "all spectra with positive moments, all record lengths T and selections of characteristics", "why_tests_cant": "the variance formulas have to be the quadratic form of the true gradient for all moments; a test compares with numbers produced by the same formulas", "anchors": ["src/wafo/spectrum/core.py:SpecData1D.characteristic"]}
{"id": "C111", "title": "Interpolation at the Padua points", "statement": "padua_val of the coefficients returned by padua_fit equals the function at every Padua point, is a polynomial of total degree n inside the rectangle, and equals f everywhere in the rectangle when f is a polynomial of total degree at most n; the fit is linear; the meshgrid variant gives the same values; outside the rectangle the value is that at the nearest point of the rectangle. The error estimate is twice the sum of the absolute coefficients of the top degree n only; it is zero exactly when the interpolant has degree at most n - 1.", "quantifier": "all degrees n >= 1, rectangles, functions and evaluation points", "why_tests_cant": "All degrees, functions and points; tests compare a few functions at fixed degrees.", "anchors": ["src/wafo/padua.py:padua_fit", "src/wafo/padua.py:padua_val", "src/wafo/padua.py:error_estimate"]}
{"id": "C112", "title": "Cubature at the Padua points", "statement": "padua_cubature(c, domain) is the integral over the rectangle of the function padua_val evaluates from c; hence it integrates polynomials of total degree at most n exactly from their values at the Padua points of degree n.", "quantifier": "all coefficient matrices, rectangles, degrees n >= 1 and polynomials of degree at most n", "why_tests_cant": "All matrices and polynomials.", "anchors": ["src/wafo/padua.py:padua_cubature", "src/wafo/padua.py:_compute_moments"]}
{"id": "C113", "title": "Bretschneider spectrum", "statement": "For every Hm0 >= 0, Tp > 0, N > 1 and M > 0 the integral of the Bretschneider spectrum over all positive frequencies is (Hm0/4)**2; for N = M + 1 the energy below a frequency W is (Hm0/4)**2 exp(-(M+1)/M (wp/W)**M). The spectrum is positive for w > 0, zero for w <= 0, increases up to wp = 2 pi/Tp and decreases after it. For N = 5, M = 4 it is 5/16 Hm0**2 wp**4/w**5 exp(-5/4 (wp/w)**4). It scales with the units of length and time. Hm0 < 0 or Tp <= 0 raises ValueError and nothing else does.", "quantifier": "all real parameters and frequencies", "why_tests_cant": "Integrals over all frequencies for every parameter value; tests evaluate a few spectra on a grid.", "anchors": ["src/wafo/spectrum/models.py:_gengamspec", "src/wafo/spectrum/models.py:Bretschneider", "src/wafo/spectrum/models.py:ModelSpectrum.chk_seastate"]}
{"id": "C114", "title": "Jonswap spectrum", "statement": "With the integration method the energy of the Jonswap spectrum below wnc times the peak frequency is exactly (Hm0/4)**2 when the integrator is exact; the spectrum is positive and has its only maximum at 2 pi/Tp; with gamma = 1 it is the Bretschneider spectrum; the peakedness factor is at least 1 and, when it is not given, at most 7. jonswap_peakfact is in [1, 7], above 1 exactly for Tp <= 5.14285714285714 sqrt(Hm0). Errors are raised for Ag <= 0, wnc < 1, a missing custom Ag, an unknown method and an impossible sea state. False of the code: the range check of the parametric method (it is skipped whenever 3 <= N <= 50) and the documented Jonswap(**jonswap_seastate(...)), whose spectrum has at most a third of the energy of its own Hm0.", "quantifier": "all real parameters, integrators and frequencies", "why_tests_cant": "Integrals and shape for all parameter values.", "anchors": ["src/wafo/spectrum/models.py:Jonswap", "src/wafo/spectrum/models.py:jonswap_peakfact", "src/wafo/spectrum/models.py:jonswap_seastate"]}
{"id": "C115", "title": "Two-peaked spectra, McCormick and Wallop", "statement": "Torsethaugen accepts every Hm0 > 0 and Tp > 0; the significant wave heights of its wind and swell parts satisfy Hw**2 + Hs**2 = Hm0**2, one part has the peak period Tp and the other has gamma = 1, and each part carries the energy of its own wave height. OchiHubble accepts exactly Hm0 >= 0 and par 0..10, and has the energy (Hm0/4)**2 within 0.5 percent. McCormick has N = M + 1 and the corresponding energy below every frequency; Wallop's default N is abs(log2(2 (pi Hm0/4/Lp)**2)) with the deep water wave length Lp. False of the code: Torsethaugen's wnc has no effect; no OchiHubble spectrum has exactly the energy of Hm0; McCormick with M=None raises TypeError for Hm0 <= 0. This holds under the conditions of the theorems; refuted beyond them: the normalized cutoff frequency is accepted and ignored; the energy is that of Hm0 within half a percent, and not exactly for any of the eleven spectra; the McCormick spectrum of a calm sea raises TypeError.", "quantifier": "all real parameters and all par", "why_tests_cant": "All parameter values and all frequencies.", "anchors": ["src/wafo/spectrum/models.py:Torsethaugen", "src/wafo/spectrum/models.py:OchiHubble", "src/wafo/spectrum/models.py:McCormick", "src/wafo/spectrum/models.py:Wallop"]}
{"id": "C116", "title": "Depth factor of the TMA spectrum", "statement": "phi1(w, h, g) is the ratio of k**-3 dk/dw at depth h to the same quantity in deep water, lies strictly between 0 and 1 for positive w and finite h, is 0 at w = 0 and 1 for infinite depth; hence the TMA spectrum is positive and below the Jonswap spectrum, and equals it in deep water.", "quantifier": "all frequencies, depths and gravity accelerations, with the wave number of the dispersion relation", "why_tests_cant": "A derivative identity for all frequencies and depths.", "anchors": ["src/wafo/spectrum/models.py:phi1", "src/wafo/spectrum/models.py:Tmaspec"]}
{"id": "C117", "title": "A spreading function is a density on the circle about its main direction", "statement": "Each column of the matrix returned by a Spreading object holds the values at the given angles of one function of the direction that does not depend on which angles were asked for, has period 2 pi, is non-negative, integrates to 1 over every full turn, is symmetric about the main direction and largest there, and (cos2s, box, von Mises, Poisson) has first Fourier coefficient s/(s+1) for the spread parameter s of that frequency; the wrapped normal has the integral and the coefficient before negative values are cut off, on equidistant angles that do not repeat the first. Calls are accepted exactly for a known first letter of the type, as many main directions as frequencies or one, a frequency independent or Mitsuyasu spread and no negative spread parameter.", "quantifier": "all angles, frequencies, main directions (numbers or functions), spread parameters and densities", "why_tests_cant": "An integral over all directions for every real exponent, and every set of angles.", "anchors": ["src/wafo/spectrum/models.py:Spreading"]}
{"id": "C118", "title": "Spread parameter laws and the directional spectrum", "statement": "The Mitsuyasu spread parameter is zero below the lower and above the upper limit and a power law on each side of the change-over frequency; tospecdata2d multiplies the spectrum by the spreading function so that the integral over the directions gives back the spectrum at every frequency, and accepts exactly directions that span a full circle. The methods donelan and banner never return, and the reported name of the frequency independent method is not accepted as a method.", "quantifier": "all frequencies, law parameters, spectra and direction grids", "why_tests_cant": "Holds for every spectrum value, frequency and direction grid.", "anchors": ["src/wafo/spectrum/models.py:Spreading.tospecdata2d", "src/wafo/spectrum/models.py:Spreading.mitsuyasu"]}
{"id": "C119", "title": "Kernels are densities in every dimension", "statement": "Each kernel that a name selects is nonnegative, symmetric under reflection, exchangeable in its coordinates, zero outside its effective support where this is bounded, and divided by its norm factor integrates to one over the space of every dimension d >= 1; norm_kernel returns the kernel divided by this factor. The Gaussian class with another radius than 4 does not integrate to one.", "quantifier": "all kernels of the table, all dimensions, all points; for the radial and product classes all powers and radii", "why_tests_cant": "The integral ranges over the whole space of every dimension.", "anchors": ["src/wafo/kdetools/kernels.py:_KernelMulti", "src/wafo/kdetools/kernels.py:_KernelProduct", "src/wafo/kdetools/kernels.py:_KernelGaussian", "src/wafo/kdetools/kernels.py:_KernelLaplace", "src/wafo/kdetools/kernels.py:_KernelLogistic", "src/wafo/kdetools/kernels.py:sphere_volume"]}
{"id": "C120", "title": "Kernel statistics and optimal bandwidth constants", "statement": "The tabulated second moment and roughness of every kernel are the integrals of x^2 K(x) and K(x)^2, the tabulated bending energy is the integral of the squared second derivative, and the AMISE constant gives the one bandwidth that minimises the asymptotic mean integrated squared error for a normal density of every standard deviation. The table gives inf for the triweight kernel, whose bending energy is 35; the other kernels with inf have a point without derivative. This holds under the conditions of the theorems; refuted beyond them: the triweight kernel has a finite bending energy where the table says inf.", "quantifier": "all kernels of the table, sample sizes, standard deviations and bandwidths", "why_tests_cant": "Improper integrals and a minimum over all bandwidths are not finite checks.", "anchors": ["src/wafo/kdetools/kernels.py:_Kernel.get_amise_constant", "src/wafo/kdetools/kernels.py:_Kernel.get_ste_constant", "src/wafo/kdetools/kernels.py:_stats_epan"]}
{"id": "C121", "title": "The kernel density estimate is a density", "statement": "With every kernel, every positive diagonal bandwidth and positive local factors the estimate evaluated at points is one nonnegative function of the point whose integral over the space is one.", "quantifier": "all data sets, dimensions, kernels, bandwidths and local factors", "why_tests_cant": "Holds for every data set and the integral ranges over the whole space.", "anchors": ["src/wafo/kdetools/kdetools.py:KDE._eval_points", "src/wafo/kdetools/kernels.py:Kernel"]}
{"id": "C122", "title": "Normal scale bandwidth is equivariant", "statement": "The normal scale bandwidth of a*x + b is |a| times that of x, does not depend on the order of the observations, is at most that of the standard deviation, and is zero exactly when all observations are equal; the oversmoothing bandwidth is it divided by 0.93.", "quantifier": "all samples, all scalings and shifts", "why_tests_cant": "Ranges over all samples and affine maps.", "anchors": ["src/wafo/kdetools/kernels.py:Kernel.hns", "src/wafo/kdetools/kernels.py:Kernel.hos", "src/wafo/kdetools/kernels.py:iqrange"]}
{"id": "C123", "title": "Derivatives of the Gaussian kernel", "statement": "deriv4_6_8_10(t, n) returns max(1, n) values, the derivatives of order 4, 6, 8, ... of the standard normal density at t, and psi(r, sigma) is the derivative of even order r at zero of the normal density with standard deviation sqrt(2) sigma.", "quantifier": "all arguments, all numbers of derivatives, all even orders", "why_tests_cant": "Holds for every order and argument.", "anchors": ["src/wafo/kdetools/kernels.py:_KernelGaussian.deriv4_6_8_10", "src/wafo/kdetools/kernels.py:_KernelGaussian.psi"]}
{"id": "C124", "title": "Names select kernels", "statement": "Kernel(name) selects the kernel whose key is the first four letters of the name and raises KeyError for any other; every documented name selects the kernel of that name; the multivariate rule is refused exactly for the kernels and dimensions without a constant. The name that the Gaussian kernel reports is not accepted. This holds under the conditions of the theorems; refuted beyond them: the name a kernel reports does not select it again.", "quantifier": "all strings", "why_tests_cant": "Ranges over all strings.", "anchors": ["src/wafo/kdetools/kernels.py:Kernel.__init__", "src/wafo/kdetools/kernels.py:Kernel._hmns_scale"]}
{"id": "C125", "title": "KDE builds a density from any bandwidths", "statement": "KDE(data, hs, kernel, alpha) with no bandwidth, one bandwidth or one per dimension is a density for every kernel: not negative and of integral one, whatever alpha. A bandwidth that is not positive is replaced by the default of its dimension; any other number of bandwidths raises ValueError. For alpha >= 0 the local factors have product one and are larger where the pilot estimate is smaller. Default limits enclose the data, and the grid arguments enclose the limits asked for and are equidistant. The constructor does change the bandwidth array of the caller, and one observation gives no default limits. This holds under the conditions of the theorems; refuted beyond them: the constructor writes the default bandwidths into the array of the caller, truncated if it holds integers; the default limits of one observation are nan.", "quantifier": "all kernels, dimensions, data sets, bandwidths and exponents", "why_tests_cant": "Integrals over all of space for every data set, kernel and bandwidth.", "anchors": ["src/wafo/kdetools/kdetools.py:KDE.__init__", "src/wafo/kdetools/kdetools.py:KDE._check_hs", "src/wafo/kdetools/kdetools.py:KDE.alpha", "src/wafo/kdetools/kdetools.py:_KDE.get_args", "src/wafo/kdetools/kdetools.py:_KDE._check_shape"]}
{"id": "C126", "title": "TKDE changes variables correctly", "statement": "TKDE evaluates the density of the transformed data at the transformed points times the absolute Jacobian, so that its integral over the domain is the integral of the transformed estimate over the values of the transformation; with parameters 0 and 1 it is a density. The inverse transformation undoes the transformation, evaluation on a grid is evaluation at the points of meshgrid, and no parameter means the plain estimate. For other powers mass is lost, a single point raises ValueError and integer data are truncated. This holds under the conditions of the theorems; refuted beyond them: a power transformation loses mass: the Gaussian estimate integrates to less than one; the transformed estimate at a single point raises ValueError; integer data are truncated after the transformation.", "quantifier": "all kernels, dimensions, data sets in the domain, transformation parameters and points", "why_tests_cant": "Integrals over the whole domain for every data set and parameter.", "anchors": ["src/wafo/kdetools/kdetools.py:TKDE.__init__", "src/wafo/kdetools/kdetools.py:TKDE._transform", "src/wafo/kdetools/kdetools.py:TKDE._scale_pdf", "src/wafo/kdetools/kdetools.py:TKDE._eval_points", "src/wafo/kdetools/kdetools.py:TKDE._eval_grid"]}
{"id": "C127", "title": "Quantile levels of a density enclose the asked mass", "statement": "qlevels(pdf, p, x1, ...) gives levels between the smallest and the largest density, not increasing in p, such that the cells where the density is at least (more than) the level hold at least (at most) p percent of the mass up to the resolution of the table: one part in the number of occupied cells, plus the largest cell, plus rounding. This holds for percentages not below the mass at the maximum of the density and not above n/(n+1.5e-8). Cell sizes are those of the trapezoidal rule, in one and two dimensions. Negative densities, percentages outside [0, 100], wrong shapes and zero mass raise ValueError. Below the mass at the maximum the levels are wrong, and asking for 100 percent changes the levels of other percentages.", "quantifier": "all shapes, densities, grids, percentages and orders argsort may choose", "why_tests_cant": "An enclosure for every density and percentage, whatever order argsort gives to ties.", "anchors": ["src/wafo/kdetools/kernels.py:qlevels"]}
{"id": "C128", "title": "Quantile levels of samples enclose the asked part", "statement": "qlevels2(data, p, method) returns for every row a value between the extremes of the row, not increasing in p, with more than p(n-1)/100 values at least as large and fewer than p(n-1)/100+1 larger. Methods 1, 3 and 4 return the k-th value at the documented position; method 2 does not. Other methods and percentages outside [0, 100] raise ValueError.", "quantifier": "all data sets with rows that are not empty, all percentages and methods", "why_tests_cant": "Counting bounds for every sample size, percentage and method.", "anchors": ["src/wafo/kdetools/kernels.py:qlevels2"]}
{"id": "C129", "title": "Cosine transforms of arrays are separable and undone by their inverses", "statement": "dctn(x, type, shape, axes, norm) for the types 2 and 3 returns an array whose entry k is the sum over all j of x[j] times the product of the row matrix over the transformed axes; axes not asked for are left alone, and a shape pads with zeros or truncates. idctn(dctn(x)) is x with norm='ortho', and x times the product of 2n over the transformed axes without; with a shape it is the padded or truncated array. norm='ortho' keeps the sum of squares. Any pair of row transforms that undo each other gives array transforms that do. A zero length or a wrong number of axes raises ValueError, an axis out of range IndexError. Negative axes are accepted but silently ignored, and the documented factor of type 3 would not make it the inverse of type 2.", "quantifier": "all arrays of any number of axes and lengths, all lists of axes, all target shapes, both types", "why_tests_cant": "Shapes, axes and entries are unbounded; the loop over axes rotates the array each time, so an error shows only for some numbers of axes.", "anchors": ["src/wafo/dctpack.py:dctn", "src/wafo/dctpack.py:idctn", "src/wafo/dctpack.py:_raw_dctn", "src/wafo/dctpack.py:_get_shape"]}
{"id": "C130", "title": "The methods of the closed-form distributions agree with each other", "statement": "For each of 38 continuous distributions with closed forms (expon, weibull_min, weibull_max, exponweib, exponpow, gompertz, gumbel_r, gumbel_l, invweibull, genlogistic, logistic, genpareto, genextreme, pareto, lomax, burr, fisk, burr12, mielke, kappa3, powerlaw, uniform, rayleigh, truncrayleigh, reciprocal/loguniform, truncexpon, bradford, genhalflogistic, halflogistic, cauchy, halfcauchy, hypsecant, anglit, arcsine, laplace, loglaplace, triang, trapz) and all allowed shape parameters: inside the support the pdf is positive and is the derivative of the cdf, the cdf lies strictly between 0 and 1, ppf maps (0,1) into the support and is the inverse of the cdf from both sides, and whichever of sf, isf, logpdf, logcdf and logsf the class defines are 1 - cdf, ppf(1 - q) and the logarithms. Hence cdf and ppf strictly increase, the cdf tends to 0 and 1 at the ends of the support, and the integral of a continuous pdf over an interval is the difference of the cdf.", "quantifier": "all real shape parameters in the allowed range, all points inside the support, all probabilities in (0,1)", "why_tests_cant": "Shape parameters, points and probabilities are real numbers; several formulas change form at a parameter value (c = 0) or at a point inside the support.", "anchors": ["src/wafo/stats/_continuous_distns.py:weibull_min_gen", "src/wafo/stats/_continuous_distns.py:genpareto_gen", "src/wafo/stats/_continuous_distns.py:genextreme_gen", "src/wafo/stats/_continuous_distns.py:triang_gen", "src/wafo/stats/distributions.py:truncrayleigh_gen"]}
{"id": "C131", "title": "Distributions built from the normal distribution", "statement": "norm, alpha, fatiguelife, halfnorm, johnsonsb, johnsonsu, levy, levy_l, lognorm, gilbrat, powernorm, powerlognorm, crystalball and truncnorm are coherent in the sense of C130: pdf is the positive derivative of the cdf, ppf is its inverse on both sides, and sf, isf and the logarithms agree. For truncnorm this includes all branches of the far-tail formulas; in the tails beyond 30 standard deviations the ppf is as exact as the numerical root it calls. For foldnorm, exponnorm, invgauss and recipinvgauss, which have no ppf of their own, the pdf is the positive derivative of the cdf, and logpdf and sf agree.", "quantifier": "all shape parameters in the allowed range, all points inside the support, all probabilities in (0,1)", "why_tests_cant": "Parameters and points are real numbers; truncnorm switches between seven formulas depending on signs and sizes of the ends.", "anchors": ["src/wafo/stats/_continuous_distns.py:norm_gen", "src/wafo/stats/_continuous_distns.py:lognorm_gen", "src/wafo/stats/_continuous_distns.py:truncnorm_gen", "src/wafo/stats/_continuous_distns.py:crystalball_gen", "src/wafo/stats/_continuous_distns.py:invgauss_gen"]}
{"id": "C132", "title": "Fixed and free parameters of a fit", "statement": "In dist.fit1 a parameter fixed by f0, fa or fix_a (any of its names), floc or fscale comes back with exactly that value, whatever optimiser is used; the list of fixed parameters is exact. The free parameters are the point the optimiser returned, in order, for the objective with the fixed values filled in, started at the positional start values, then loc and scale keywords, then the distribution's own start. search=False returns the start values with the fixed ones in place. Two names for one parameter, fixing all parameters, too many positional values or an unknown keyword are refused. Exceptions that are found: with search=False unknown keywords are ignored, and floc=None fixes the location to None. This holds under the conditions of the theorems; refuted beyond them: a misspelt keyword goes unnoticed when the search is off; floc=None does not mean a free location, as it does for a shape parameter.", "quantifier": "all lists of shape names without clashes, all keyword dictionaries, positional values, start values, objectives and optimisers", "why_tests_cant": "The optimiser is arbitrary code and the keyword combinations are unbounded.", "anchors": ["src/wafo/stats/_distn_infrastructure.py:_fit", "src/wafo/stats/_distn_infrastructure.py:_reduce_func2", "src/wafo/stats/_distn_infrastructure.py:_unpack_args_kwds", "src/wafo/stats/_distn_infrastructure.py:_get_fixed_fit_value", "src/wafo/stats/_distn_infrastructure.py:_fitstart"]}
{"id": "C133", "title": "Moran's statistic", "statement": "For an increasing sample inside the support the MPS objective is minus the sum of the logarithms of the n+1 spacings of the distribution function (plus the smallest float), exp of its negative is their product, it is never below the value of equal spacings and reaches it only when F(x_i) = i/(n+1). Each observation outside the support adds exactly 100 log(xmax). Illegal shapes or scale <= 0 give infinity, fewer than two parameters ValueError. Changing the units of data, location and scale together leaves it unchanged when there are no ties, and adds log b for each tie. The upper tail version gives the same logarithms.", "quantifier": "all distributions, shape parameters, locations, scales and samples of any size", "why_tests_cant": "Samples are unbounded and real; a minimum over all distribution functions cannot be tested.", "anchors": ["src/wafo/stats/_distn_infrastructure.py:_penalized_nlogps", "src/wafo/stats/_distn_infrastructure.py:_nlogps_and_penalty", "src/wafo/stats/_distn_infrastructure.py:_log_dprb", "src/wafo/stats/_distn_infrastructure.py:_resolve_ties"]}
{"id": "C134", "title": "Poisson binomial distribution", "statement": "pbinom(probs) accepts exactly the lists whose members lie in [0, 1]. For n independent trials with these success probabilities, pmf(k), cdf(k) and sf(k) are the probabilities of exactly k, at most k and more than k successes, up to one machine epsilon per added value and never above 1; outside 0..n they are 0, 0 or 1 and 1 or 0, without an error for any integer. The cdf is nondecreasing. mean, variance, skewness and excess kurtosis are those of the number of successes. The other formula for the probabilities gives the same values. Exceptions that are found: the stored probabilities add up to 1 + (n+1) eps, and the survival function cannot be looked up at n by the internal method.", "quantifier": "all lists of probabilities of any length, all integers k and all eps >= 0", "why_tests_cant": "The number of trials is unbounded and the probabilities are real numbers.", "anchors": ["src/wafo/stats/distributions.py:pbinom", "src/wafo/stats/distributions.py:_fft_pmf", "src/wafo/stats/distributions.py:_chi", "src/wafo/stats/distributions.py:_local_pmf", "src/wafo/stats/distributions.py:_stats"]}
{"id": "C135", "title": "Magic squares", "statement": "For every n >= 3, magic(n) is an n x n array holding each of the numbers 1, ..., n^2 exactly once whose rows, columns and both diagonals all add up to n (n^2 + 1) / 2. For n < 3 it raises ValueError.", "quantifier": "all integers n", "why_tests_cant": "There are infinitely many orders and three different constructions.", "anchors": ["src/wafo/demos.py:magic", "src/wafo/demos.py:_magic_odd_order", "src/wafo/demos.py:_magic_doubly_even_order", "src/wafo/demos.py:_magic_even_order"]}
{"id": "C136", "title": "Automatic discretisation of a function", "statement": "discretize(fun, a, b, tol, n, method) with a < b and n >= 2 returns points x and the values fun(x). The linear method starts from n equally spaced points and halves the spacing, stopping at the first grid where the largest relative deviation of the function from its chords in the new middles is at most tol, or has changed by at most tol/2 five times, or the grid has 2^20 points; a straight line takes one halving. Every round of the adaptive method (a method that starts with 'a') adds exactly the middles of the intervals next to the points where the last deviation exceeded tol; the points always increase strictly from a to b and keep the first grid. The adaptive method with n <= 1 and the linear method with n <= 0 raise ValueError.", "quantifier": "all functions, intervals, tolerances, numbers of points and method names", "why_tests_cant": "The loop depends on the function in infinitely many ways; tests see a few smooth examples.", "anchors": ["src/wafo/misc.py:discretize", "src/wafo/misc.py:_discretize_linear", "src/wafo/misc.py:_discretize_adaptive"]}
{"id": "C137", "title": "Good bins for a histogram", "statement": "good_bins for a range (mn, mx) with mn < mx and num_bins > 0 returns equally spaced limits. Their step is the largest number of the form 1, 2 or 5 times a power of ten that does not exceed 2 (mx - mn) / num_bins. The limits are multiples of the step (odd=True: odd multiples of half the step), cover the range, keep a margin of one step if loose and half a step if odd, and exceed that margin by less than a step on either side; the number of bins is between num_bins/2 and 5/4 num_bins + 2, plus 2 if loose and 1 if odd. Without a range the limits cover all data. Finding: data that are all equal raise ValueError.", "quantifier": "all data sets, ranges, numbers of bins and flags", "why_tests_cant": "The step depends on the decade of the range, of which there are infinitely many.", "anchors": ["src/wafo/misc.py:good_bins"]}
{"id": "C138", "title": "Histogram polygons", "statement": "The polygon of plot_histgrm draws over every interval of the limits a bar whose height is the number (weight) of the observations in it, the intervals being half open and the last one closed; the heights add up to the number of observations between the first and the last limit. With density=True the area under the polygon is 1 and every bar has the part of the weight in its interval. By default all observations are counted. Finding: an array of limits given by the caller is turned into a column, so that the next call with it raises ValueError. This holds under the conditions of the theorems; refuted beyond them: an array of edges of the caller becomes a column, which the next call refuses.", "quantifier": "all data sets, limits, ranges and weights", "why_tests_cant": "Boundary cases and totals must hold for all data and limits.", "anchors": ["src/wafo/misc.py:_histogram", "src/wafo/misc.py:_make_bars", "src/wafo/misc.py:plot_histgrm"]}
{"id": "C139", "title": "Fourier coefficients of sampled signals", "statement": "For a signal that is a trigonometric sum with K harmonics of the period T, sampled at N+1 equally spaced times over q whole periods with q(K+m-1) < N, fourier gives for every row and every harmonic below m exactly qT/(2 pi) times the cosine and sine coefficients of the sum, and 0 for the harmonics above K; the period defaults to the sampled stretch. So the documented series of the result is the signal if the stretch has length 2 pi. Findings: for other lengths the documented series is the signal times L/(2 pi); the caller's array of times is turned into a row, and the same call repeated without a period gives nan for every harmonic. This holds under the conditions of the theorems; refuted beyond them: For other lengths the documented series is not the signal; The caller's array of times becomes a row; the same call with it then gives nan.", "quantifier": "all trigonometric sums, numbers of rows, periods, phases, numbers of periods, samples and harmonics", "why_tests_cant": "Orthogonality of the sampled harmonics must hold for all sums, sample counts and phases.", "anchors": ["src/wafo/misc.py:fourier"]}
{"id": "C140", "title": "The highest peaks of a signal or a surface", "statement": "For a signal with at least two turning points findpeaks with min_h=0 returns the n highest of its peaks, the highest first: at most n distinct indices, each a place where the signal turns down (or its end, if it rises to the end), and a peak that is missing is not higher than any of n returned ones; min_p then drops exactly the peaks that are not above its part of the largest value. With min_h > 0 the peaks are exactly the maxima of the rainflow cycles of range at least min_h, and the maximum of the signal if there is no such cycle; the default is 5 percent of the range. For a matrix the peaks are those of the rows that are higher than the rows beside them. Findings: a signal with at most one turning point (for example a single peak) raises TypeError, a matrix with one row IndexError. This holds under the conditions of the theorems; refuted beyond them: A signal with at most one turning point, as one with a single peak, raises TypeError; findpeaks of a matrix with one row raises IndexError.", "quantifier": "all integer signals and matrices, numbers of peaks, thresholds, sort orders of equal heights", "why_tests_cant": "That the odd turning points are the maxima rests on the alternation of the rainflow turning points for all signals and thresholds.", "anchors": ["src/wafo/misc.py:findpeaks", "src/wafo/misc.py:findtp", "src/wafo/misc.py:findrfc"]}
{"id": "C141", "title": "Level crossing spectra: mean and deviation, extrapolation of the tails", "statement": "LevelCrossings of the crossing spectrum of a normal process, given at 22 or more increasing levels with the mean among them, finds its mean and standard deviation exactly and has the same spectrum as child; with mean and sigma given, the child is the normal spectrum with the largest count. extrapolate returns increasing levels: 401 levels down from u_min and up from u_max in steps of 1/100, with the interpolated count plus 1 times the survival function fitted to a sample, and between them the original levels and counts; the sample has, for every level beyond the limit, as many values at least that far as the integer part of the largest count from there on. Findings: if the mean is half way between two levels mean and deviation are nan; spectra with counts of at most 1, as normalised ones, raise ValueError without explicit limits; at most 20 levels raise TypeError. This holds under the conditions of the theorems; refuted beyond them: The mean half way between two levels: division by zero; Counts of at most 1, as of a normalised spectrum, have no default limits.", "quantifier": "all levels, counts, limits, fits of the tail and least squares solvers", "why_tests_cant": "The reduction of an arbitrary spectrum to records and copies must keep the number of exceedances of every level, for every spectrum.", "anchors": ["src/wafo/objects.py:LevelCrossings.estimate_mean_and_stdev", "src/wafo/objects.py:LevelCrossings.extrapolate", "src/wafo/objects.py:LevelCrossings._extrapolate", "src/wafo/objects.py:LevelCrossings._make_increasing"]}
{"id": "C142", "title": "The simulated process has the wanted irregularity factor", "statement": "For every irregularity factor alpha in (0, 1) the latent process of LevelCrossings.sim is an autoregressive series of order 2 whose stationary version has unit variance and mean-crossing rate alpha times its rate of extremes: acos(r1) = alpha acos(corr of successive increments), with r1, r2 solving the Yule-Walker equations and a positive innovation variance. The simulated values are linear in the drawn numbers, obey the recursion from the two start values, have covariance r(|i-j|) + (r1^2 - r2^2) h(i) h(j) with h the response to the second start value, and this tends to the stationary covariance. Finding: the second start value is drawn with sqrt(1 - r2^2) in place of sqrt(1 - r1^2), so the series is not stationary from the start (its second value has variance 1 + r1^2 - r2^2). This holds under the conditions of the theorems; refuted beyond them: The second value does not have unit variance: sqrt(1 - r2^2) is used for sqrt(1 - r1^2).", "quantifier": "all alpha in (0, 1), lengths, places and drawn numbers", "why_tests_cant": "A test sees one random series and compares estimates with a tolerance; the covariance at every lag and place is an exact statement about all draws.", "anchors": ["src/wafo/objects.py:LevelCrossings.sim"]}
{"id": "C143", "title": "Simulated series have the given autocovariance function", "statement": "CovData1D.sim returns for every autocovariance function with its maximum at lag 0 the times 0, dt, ..., (ns-1) dt and `cases` columns of ns values that are linear in the drawn standard normal numbers; different columns are independent and each column is stationary. If the autocovariance function does not end with (about) 0 and its circulant embedding is positive definite, then the covariance of two values of a column is exactly the given autocovariance at their distance; if the embedding is only semidefinite the error is at most 1e-5 of its largest eigenvalue. In general it is the covariance of the eigenvalues that are kept: those that are not negative, do not lie between a negative one beyond twice the peak and its mirror image, and are not below 1e-5 of the peak beyond it. A maximum elsewhere is a ValueError, fewer than two times an IndexError. Findings: an autocovariance function that ends with 0 is embedded with an offset of one, so that at every lag the average of two neighbouring values is simulated; and the default ns=None is a TypeError.", "quantifier": "all autocovariance functions, times, lengths, numbers of columns, places and drawn numbers", "why_tests_cant": "A test sees one random series and compares estimates with a tolerance; the covariance at every lag and place is an exact statement about all draws.", "anchors": ["src/wafo/covariance/core.py:CovData1D.sim", "src/wafo/covariance/core.py:CovData1D.sampling_period"]}
{"id": "C144", "title": "Missing values are predicted by the best linear prediction", "statement": "CovData1D.simcond with method 'exact' returns for every pattern of missing values a mean that is linear in the present values, whose error is uncorrelated with them and has the smallest variance of all linear predictions; the deviations and the covariances passed to the sampler are those of these errors, and no error is raised, if the truncated autocovariance function is positive semidefinite and the solver solves the normal equations. For long series the variance is raised by a factor 1.00001; the sparse matrix built for them equals the Toeplitz matrix. Autocovariances that are cut off are below a tenth of their estimated deviation. The default method 'approx' gives the same as the exact one on the last 2*lag values if the first missing value lies in them (past the overlap). Findings: otherwise the default method always fails, after having written a sample into the caller's series; marking values as missing by i_unknown writes NaN into the caller's series; the exact method for long series multiplies the variance stored in the object; an unknown method returns zeros.", "quantifier": "all autocovariance functions, series, patterns of missing values and solvers that solve the normal equations", "why_tests_cant": "A sampled prediction is random and its optimality ranges over all other predictions; the failing and mutating branches depend on where values are missing.", "anchors": ["src/wafo/covariance/core.py:CovData1D.simcond", "src/wafo/covariance/core.py:sptoeplitz", "src/wafo/covariance/core.py:CovData1D._get_lag_where_acf_is_almost_zero"]}
{"id": "C145", "title": "The Savitzky-Golay filter keeps polynomials and fits by least squares", "statement": "savitzky_golay(y, window_size, order, deriv) returns, for an odd window of at least order + 2 and more than half a window of values, one value for each value of y. Where the window lies inside the data the result is (-1)^deriv times the coefficient of order deriv of the polynomial of degree order that fits the window best in the sense of least squares, around its centre; so polynomials of that degree are kept exactly, and the weights have the least sum of squares (the least noise) of all weights that keep them. Constants and rising straight lines are kept up to the ends. Even or too small windows raise TypeError. savitzky_golay_piecewise cuts x in monotone pieces of at least two points and smooths the data of each on its own; a monotone x is one piece. Findings: the first derivative has the wrong sign and the second is half of the derivative; falling straight lines are bent at the ends; data shorter than half a window give a result of another length; a last piece of one point raises IndexError.", "quantifier": "all data, windows, orders, derivatives and, for the piecewise filter, all abscissas", "why_tests_cant": "Optimality ranges over all other polynomials and all other weights, exactness over all polynomials and all window sizes.", "anchors": ["src/wafo/interpolate.py:savitzky_golay", "src/wafo/interpolate.py:savitzky_golay_piecewise", "src/wafo/interpolate.py:_get_turnpoint", "src/wafo/interpolate.py:_check_window_size"]}
{"id": "C146", "title": "Logarithms of factorials, beta functions and binomial coefficients are accurate for all arguments", "statement": "In exact arithmetic stirlerr(n) differs by at most 2.5e-16 from log(n!) - log(sqrt(2 pi n) (n/e)^n) for every real n > 0, on each side of the switches between the series at 15, 35, 80 and 500, where gammaln is the logarithm of the gamma function. betaloge(z, w) differs by at most 1e-15 from log B(z, w) for all positive z and w below the largest float, and is symmetric; binomln(z, w) differs by at most 1e-15 from the logarithm of the binomial coefficient for all real 0 <= w <= z, so from log(n! / (k! (n-k)!)) for whole numbers, and is -inf for w > z.", "quantifier": "all positive real arguments", "why_tests_cant": "The truncation error of the asymptotic series must be bounded between and far beyond the tabulated points.", "anchors": ["src/wafo/misc.py:stirlerr", "src/wafo/misc.py:betaloge", "src/wafo/misc.py:_betaln3", "src/wafo/misc.py:binomln"]}
{"id": "C147", "title": "Ship characteristics are consistent and gravity grows from the equator to the poles", "statement": "getshipchar called with one property of a ship returns that property unchanged up to the rounding to one unit or one tenth, and with the propeller diameter up to the rounding of the length, for all six properties and every positive value; a larger value never gives a smaller ship in any of the characteristics; the standard deviation of the property that was given is 0 (this fails for max_deadweight, whose standard deviation stays 10 percent while a misspelt key is added); the other standard deviations are 10 percent of deadweight, beam and speed, 22 percent of the draught, length^0.13 and the propeller law applied to that; only the first two letters of the name count; anything but exactly one property is a ValueError, an unknown name a KeyError. gravity is an even function of the latitude, increases from 0 to 90 degrees and lies between its values at the equator and the poles.", "quantifier": "all names and positive values of the property, all latitudes", "why_tests_cant": "The power laws and their inverses must match for every size of ship, and monotonicity is about all pairs of arguments.", "anchors": ["src/wafo/misc.py:getshipchar", "src/wafo/misc.py:_get_max_deadweight", "src/wafo/misc.py:gravity"]}
{"id": "C148", "title": "The links of profile likelihoods solve for the fixed parameter", "statement": "profile_quantile and profile_probability replace one parameter of the fitted distribution by the value for which the probability of exceeding x is exp(logsf). For expon (both parameters), weibull_min and frechet_r (all three), burr (d), exponweib (a), genpareto (scale, and location for c=0), gumbel_r and genextreme (scale), rayleigh and truncrayleigh (location) the link returns exactly that parameter for every x inside the support, and with the value returned the distribution has that exceedance probability. It fails for the others: burr c, location and scale are always nan; exponweib c, location and scale are nan whenever the probability of not exceeding x is at most 1/e; the location links of genpareto (c != 0) and genextreme (c != 0) are never right; those of gumbel_r and genextreme with c = 0 raise IndexError; both links of genexpon are always wrong, and the scale links of rayleigh and truncrayleigh are off by (z-1)x/z. The distribution truncrayleigh is not found in the table of links, which is registered under a misspelt name.", "quantifier": "all parameters, all x inside of the support and all probabilities", "why_tests_cant": "That a link inverts the survival function in one parameter is an identity in up to five real variables; a test at a fitted value compares only one point.", "anchors": ["src/wafo/stats/estimation.py:LINKS", "src/wafo/stats/estimation.py:_weibull_min_link", "src/wafo/stats/estimation.py:_genpareto_link", "src/wafo/stats/estimation.py:_genextreme_link", "src/wafo/stats/estimation.py:_burr_link", "src/wafo/stats/estimation.py:_rayleigh_link"]}
{"id": "C149", "title": "Profile confidence intervals contain exactly what the profile supports", "statement": "For a profile with one hill over an increasing grid get_bounds returns an interval between pmin and pmax that contains the estimate and every grid point whose profile is above profile_max - chi2isf(alpha, 1)/2, and no grid point below that level, whatever number of crossings (none, one, two) the level has; a smaller alpha never gives a narrower interval. For a profile of any shape that begins and ends below the level the interval goes from the first upward to the last downward crossing and contains every grid point above the level. The first claim holds for the whole grid although the profile is computed only until it falls below the level. The grid chosen by default is strictly increasing, contains the estimate and both limits. The search for a limit stays on its side of the estimate and, where it reports convergence, ends where the profile is below the level; when a higher maximum is found on the way the level moves by the same amount. Profiling a fixed parameter is an IndexError. It is not true that the profiled parameter is by default the first free one (it is the last if any parameter is fixed), that at most n points are used, nor that the interval is right for a profile with a valley.", "quantifier": "all profile functions with one maximum, all grids, levels and fixed parameters", "why_tests_cant": "The claim is about every shape of profile and every position of the level relative to it, including plateaus and ties.", "anchors": ["src/wafo/stats/estimation.py:_CommonProfile", "src/wafo/stats/estimation.py:Profile", "src/wafo/stats/estimation.py:_CommonProfile.get_bounds", "src/wafo/stats/estimation.py:_CommonProfile._get_profile"]}
{"id": "C150", "title": "Covariances, confidence intervals, p-values and densities of a fit", "statement": "For a fitted distribution the computed second derivatives form a symmetric matrix; if near the estimate the fitting function is, up to K, a constant plus an odd function plus a quadratic form, their error is at most 4K/delta^2 on the diagonal and K/delta^2 off it. par_cov is zero in the rows and columns of fixed parameters, and on the free parameters the inverse of their curvature, however many are fixed. par_lower and par_upper lie symmetrically around par, cover 1 - alpha of the approximating normal distribution, get wider with smaller alpha, coincide with par for a fixed parameter and are nan exactly when the variance is negative. The p-value standardises the statistic to the mean n and the variance 2n of the chi-square distribution, and decreases with the statistic and with the number of parameters. The limits of the density plot have a step of 1, 2 or 5 times a power of ten between a third of the wanted width and that width, and contain all the data; the plotted staircase has area one. Data that are all equal give a ValueError.", "quantifier": "all fitting functions, parameters, sets of fixed parameters, levels and data", "why_tests_cant": "The claims concern every function, every choice of fixed parameters and every sample.", "anchors": ["src/wafo/stats/estimation.py:FitDistribution._hessian", "src/wafo/stats/estimation.py:FitDistribution._invert_hessian", "src/wafo/stats/estimation.py:FitDistribution._get_confidence_interval", "src/wafo/stats/estimation.py:FitDistribution._pvalue", "src/wafo/stats/estimation.py:FitDistribution._get_grid", "src/wafo/stats/estimation.py:FitDistribution._staircase"]}
{"id": "C151", "title": "Moments and rotation of directional spectra", "statement": "moment(nr, vari) of a directional spectrum returns, each once, all moments of order 0, 1, 2 and 4 up to nr in the wanted variables, in any spelling of vari, and each value except myt is the integral of k1^a k2^b w^c S(w, theta) by Simpson's rule in both variables with the exponents that its name spells; mxx + myy does not depend on phi. myt is not this integral: the code uses the cosine in place of the sine, so it returns mxt (times g[0]/g[-1]). The documented type k2d always raises AttributeError. rotate(phi) adds phi to the angle of the spectrum modulo 2 pi, and rotations add up, if the directions come first in args and start at -pi; otherwise it fails: on the spectra the library makes itself it raises TypeError after having changed phi, with the frequencies first it moves the frequencies so that they start at -pi, and with directions that start elsewhere it turns the waves by a wrong angle.", "quantifier": "all spectra, numbers of directions and frequencies, orders and variables, and angles", "why_tests_cant": "The claims range over all spectra, all of the combinations of order and variables, and all angles.", "anchors": ["src/wafo/spectrum/core.py:SpecData2D.moment", "src/wafo/spectrum/core.py:SpecData2D.rotate"]}
{"id": "C152", "title": "Bivariate normal probabilities and local maxima of Gaussian processes", "statement": "cdfnorm2d of numbers is the product of the marginals for r = 0, the marginal at the smaller limit for r = 1, max(0, P(X <= b1) - P(Y > b2)) for r = -1 and nan for |r| > 1; it does not change when the limits are exchanged, it exceeds the product of the marginals for 0 < r < 0.925 and is smaller for -0.925 < r < 0, it is 1/4 + asin(r)/(2 pi) at the origin up to 1e-15, and for |r| < 0.3 and for 0.925 <= |r| <= 1 the probabilities of {X <= b1, Y <= b2} and {X <= b1, Y > b2} add up to P(X <= b1). For |r| < 0.925 it is the formula of Drezner and Wesolowsky with a quadrature whose nodes and weights integrate polynomials of degree up to 11, 23 or 39. For arrays the results are those for the numbers if no correlation has 0.925 <= |r| < 1, or if all have 0.925 <= |r| <= 1; otherwise a result can be changed by its neighbours and even be negative (refuted). prbnorm2d is the probability of the rectangle by inclusion and exclusion, with limits beyond 37 as infinite, 0 for an empty rectangle and 1 for the plane; but for a strip, with one coordinate unbounded on both sides, it is always 1 (refuted). cdflomax is for |alpha| < 1 a continuous strictly increasing distribution function whose derivative is Rice's density, normal for alpha = 0; for alpha = 1 it is the Rayleigh distribution, except that it is nan at 0.", "quantifier": "all limits, correlations, arrays, irregularity factors and variances", "why_tests_cant": "Tests use a few limits and a scalar correlation; the claims are about all of them and about arrays with any mixture of correlations.", "anchors": ["src/wafo/gaussian.py:cdfnorm2d", "src/wafo/gaussian.py:prbnorm2d", "src/wafo/gaussian.py:bvd", "src/wafo/gaussian.py:fi", "src/wafo/gaussian.py:cdflomax"]}
{"id": "C153", "title": "Integration, plotting data and labels of PlotData", "statement": "For a curve with increasing abscissas eval_points is the polygon through the points, whatever their order, and nan outside; integrate(a, b) is the integral of that polygon from a to b, so it is additive over adjacent intervals, takes the ends of the curve for missing limits, and is nan if a limit lies outside; with the limits in the wrong order it is a single trapezium and not the negative of the integral (refuted). A matrix is integrated column by column; with return_ci and a child with lower and upper limits around the curve the result lies between the integrals of the limits; without children return_ci raises TypeError. to_cdf starts at 0, is the integral from the first abscissa, and does not decrease if the data are not negative. Plotting with a flag applies 1-f, log f, log(1-f) or 10 log10 f point by point, but with a cumulative transformation it always fails, because one value is missing (refuted). The axis limits are set for logarithmic scales and for log(1-f), there with the lower limit above the upper one (refuted). Contour levels are the given ones in order, or eight fractions between the smallest and the largest value. Labels: given x and y labels are set and others kept, a title that is on the axis already, but for capitals and surrounding blanks, replaces it, and others are added on a new line, but a title on an axis without one gets an empty line in front (refuted); a z label replaces the y label (refuted).", "quantifier": "all curves, matrices, limits, plot flags, labels and axes", "why_tests_cant": "The tests integrate one sine curve; equality with the exact integral, additivity and the behaviour for all limits and flags concern every curve.", "anchors": ["src/wafo/containers.py:PlotData.eval_points", "src/wafo/containers.py:PlotData.integrate", "src/wafo/containers.py:PlotData.to_cdf", "src/wafo/containers.py:AxisLabels.labelfig", "src/wafo/containers.py:transformdata_1d", "src/wafo/containers.py:set_axis", "src/wafo/containers.py:_get_contour_levels"]}
{"id": "C154", "title": "Chebyshev series in several variables", "statement": "chebvalnd(c, x1, ..., xn) is at every point the sum of c[i,j,...] T_i(x1) T_j(x2) ..., for any number of variables, with further axes of c as further sets of coefficients; chebgridnd is the same on every point of the grid, with x1 on the first axis; the rows of chebvandernd times c.flat are the same values, and negative degrees or a wrong number of them raise ValueError. If c has fewer axes than there are variables, the values at the points are taken as coefficients instead of appending ones to the shape (refuted). chebfitnd fails whenever the number of points differs from the number of coefficients, and otherwise returns coefficients that do not depend on the data: the series takes the norms of the columns of the Vandermonde matrix as values (that it is a least squares fit is refuted). chebfit_dct interpolates the function at the Chebyshev points of the domain for one and two variables; for more variables the series belongs to the coordinates in the order x1, x3, ..., xn, x2 (that it can be evaluated by chebvalnd in the given order is refuted).", "quantifier": "all coefficient arrays of any number of axes, points, degrees, data and functions", "why_tests_cant": "Tests use one function in at most two variables; the claims range over every number of variables and all coefficients, and the fits that fail are not tested.", "anchors": ["src/wafo/polynomial.py:chebvalnd", "src/wafo/polynomial.py:chebgridnd", "src/wafo/polynomial.py:chebvandernd", "src/wafo/polynomial.py:chebfitnd", "src/wafo/polynomial.py:chebfit_dct"]}
{"id": "C155", "title": "Resampling a spectrum", "statement": "resample(dt) replaces the frequencies of a one-dimensional spectrum by 2^k + 1 equally spaced ones from 0 to the Nyquist frequency of dt, at least as many as before and as Nmin and at least nine, and as dense as the old ones are on average unless Nmax is reached; no value is negative; the curve that is evaluated passes through the old values, is 0 at frequency 0 and at the new Nyquist frequency where these are new, and for linear and Stineman interpolation the values more than one smallest gap outside the old range are 0. With the default dt and 2^j + 1 equally spaced frequencies from 0 the old points and values are kept among the new ones. Too few points, and no or one frequency, raise and leave the spectrum alone. That nothing is changed when dt is not given, that Nmax bounds the number of frequencies and that a failed call leaves the spectrum as it was are refuted.", "quantifier": "all increasing frequencies >= 0, values, sampling intervals, Nmin, Nmax and methods", "why_tests_cant": "No test compares the resampled with the original spectrum; the claims range over all spectra and sampling intervals.", "anchors": ["src/wafo/spectrum/core.py:SpecData1D.resample"]}
{"id": "C156", "title": "Smoothing surfaces", "statement": "Where the window of sgolay2d lies in the image and the pixels in it are those of a polynomial surface of at most the given order, smoothing returns the pixel itself and, if the order is less than the window size, derivative='col', 'row' and 'both' return the rates of change of the surface along the first axis, along the second axis and both. Constant images and planes that do not fall along either axis are kept up to the border, with the right slopes. The result has the shape of the image; even windows and windows with fewer points than terms raise TypeError, another derivative KeyError and a derivative of order 0 IndexError. That derivatives are right for every order that is accepted, and that all planes are kept at the border, are refuted.", "quantifier": "all images, odd window sizes >= 3, orders, polynomial surfaces and routines that return Moore-Penrose inverses", "why_tests_cant": "The one example compares printed numbers; exactness on all polynomial surfaces and at all borders ranges over all inputs.", "anchors": ["src/wafo/interpolate.py:sgolay2d"]}
{"id": "C157", "title": "Rational approximations", "statement": "When padefit returns two polynomials, they have together one coefficient more than the series, the denominator is 1 at 0, denominator times series minus numerator starts with the power x^len(c), and any other pair of no larger degrees with that property is the same rational function; the degree of the denominator is m, or by default the half of the degree of the series, and negative m and m > degree raise ValueError. When padefitlsq returns two polynomials they have degrees m and k, the denominator is 1 at 0 and has no zero at the points, and their largest deviation from the values is at most that of the linear least-squares fit of numerator - value * denominator; if the values are those of a rational function of these degrees without poles at the points and 0, that function is returned. For a function the points are 8(m+k+1) distinct points of the interval; other numbers of points raise ValueError. That m=0 gives a polynomial, that an array and a poly1d with the same coefficients give the same result, and that longer vectors are accepted as documented, are refuted.", "quantifier": "all series, degrees, points, values, linear solvers and routines that return Moore-Penrose inverses", "why_tests_cant": "The examples compare exp with one approximation each; the order of contact, uniqueness and recovery of rational functions are statements about all polynomials.", "anchors": ["src/wafo/polynomial.py:padefit", "src/wafo/polynomial.py:padefitlsq"]}
{"id": "C158", "title": "Integrals of oscillating functions", "statement": "The weights for nodes x on [-1, 1] integrate f(t) exp(i omega g(t)) exactly whenever f is p' + i omega g' p for a polynomial p with as many coefficients as nodes, if any weights do; so does Levin's collocation. QuadOsc returns the integral if that holds on the interval and its two halves. For a linear phase all this is so for distinct nodes, and QuadOsc returns the Fourier integral of every polynomial with at most s coefficients over every interval, in either direction and with any basis and extrapolation; AdaptiveLevin and EvansWebster do for polynomials with at most 3 coefficients and, for EvansWebster with s > 1, 17, whatever the level crossings are. In general QuadOsc stops at the first bisection at which a difference of successive estimates, extrapolated up to twice, is at most the tolerance, or at maxiter - 1, and returns the estimate with the smallest difference. Exchanged limits change the sign. For infinite limits the integrand is changed to one with the same integral between corresponding points, and the derivative of the phase with it. The limits of AdaptiveLevin are increasing from a to b and contain the level crossings between; its nodes are increasing, and in the open interval for open points. Richardson's extrapolation recovers the limit of Q + A r^k. That every maxiter >= 1 works is refuted.", "quantifier": "all polynomials, linear phases, frequencies, limits, bases of polynomials, extrapolations, solvers of linear systems and level crossings; all phases where a rule exists", "why_tests_cant": "The tests compare a few integrals with known values to 10 digits; exactness for all polynomials and the choice among estimates are statements about all integrands.", "anchors": ["src/wafo/integrate_oscillating.py:PolyBasis", "src/wafo/integrate_oscillating.py:ChebyshevBasis", "src/wafo/integrate_oscillating.py:richardson", "src/wafo/integrate_oscillating.py:evans_webster_weights", "src/wafo/integrate_oscillating.py:osc_weights", "src/wafo/integrate_oscillating.py:QuadOsc", "src/wafo/integrate_oscillating.py:adaptive_levin_points", "src/wafo/integrate_oscillating.py:open_levin_points", "src/wafo/integrate_oscillating.py:AdaptiveLevin", "src/wafo/integrate_oscillating.py:EvansWebster"]}
{"id": "C159", "title": "Common shapes, positions and labels in multiples of pi", "statement": "common_shape returns, for all shapes and whatever their order, the smallest shape to which all of them (and the given shape) can be stretched, and raises ValueError exactly if there is none. args_flat with three arrays returns one row for each element of the common shape in row-major order, made of the elements that numpy's stretching rule puts there, and the common shape; with one array of shape N x 3 or 3 the rows of the array and None; any other shape or number of arguments is a ValueError. num2pistr writes num pi / den with denominator below the limit and numerator below the limit as a text that denotes this multiple of pi and no other, and other numbers with the number format. That multiples with ten or more times pi are not written as fractions is refuted: for negative numbers the limit on the numerator is not applied.", "quantifier": "all numbers of arrays of any shapes, including lengths 0 and 1, all fractions and limits", "why_tests_cant": "The doctests show four calls; that the common shape is the least one, does not depend on the order and that every element goes to its place are statements about all shapes.", "anchors": ["src/wafo/misc.py:common_shape", "src/wafo/misc.py:args_flat", "src/wafo/misc.py:num2pistr"]}
{"id": "C160", "title": "Parameters and steepness of the waves of a time series", "statement": "For every time series with increasing instants and at least three zero crossings, TimeSeries.wave_parameters reports one entry for each crest between an up- and a down-crossing: Ac is the highest sample of the crest, At minus the lowest sample of the trough before it, Hd and Hu the height above the trough before and after it, Td and Tu the time between the successive zeros (of the straight line through the samples) of down- and up-crossings, Tcf and Tcb the time from the up-crossing zero to the crest and from the crest to the down-crossing zero. All amplitudes and periods are positive, so the replacement of zero periods never takes place, and Tcf + Tcb is less than Td and than Tu. With fewer crossings all arrays are empty and nothing is raised. TimeSeries.wave_height_steepness returns for each of its seven kinds, given by number or by name, the documented function of these parameters, for kind 0 the greater of the two speeds with the wave height that belongs to it; every other number ends in UnboundLocalError and every other name in TypeError.", "quantifier": "all series of samples, all increasing instants (uniform or not), all kinds and accelerations of gravity", "why_tests_cant": "The doctests compare two waves of one record; that the two functions, which slice the crossings differently, agree and never divide by zero is a statement about all series.", "anchors": ["src/wafo/objects.py:TimeSeries.wave_parameters", "src/wafo/objects.py:TimeSeries.wave_height_steepness", "src/wafo/objects.py:TimeSeries.sampling_period"]}
{"id": "C161", "title": "Damage of cycles", "statement": "CyclePairs.damage returns one number for each given exponent: K times the sum of the half ranges to that power (the documented Palmgren-Miner sum). It is additive over cycles, does not depend on their order, on which end is stored as minimum, or on the mean level; cycles f times as large do |f|**beta times the damage; for K >= 0 and beta > 0 it is never negative and larger ranges never do less damage. The damage of the min-to-max and of the max-to-min cycles of a sequence of turning points together is the damage of all steps from one turning point to the next. get_minima_and_maxima returns the lower and upper end of every cycle if all cycles rise or all fall. That it does so for all cycles is refuted: if some cycles rise, those that fall are dropped.", "quantifier": "all lists of cycles, exponents, constants and sequences of turning points", "why_tests_cant": "The doctest compares six numbers for one record; additivity, invariance and monotonicity are statements about all cycles and exponents.", "anchors": ["src/wafo/objects.py:CyclePairs.damage", "src/wafo/objects.py:CyclePairs.amplitudes", "src/wafo/objects.py:CyclePairs.get_minima_and_maxima"]}
{"id": "C162", "title": "Sum and difference frequency effects of second order waves", "statement": "disufq adds up, for every case and every frequency number k, the products of pairs of amplitudes with the quadratic transfer functions: twice the square of an amplitude at the doubled frequency, four times the product of two amplitudes at the sum of their frequencies and four times the product with the conjugate at the difference, and the diagonal differences at k = 0. This holds for any number of cases stored side by side for each frequency, and the result of a case does not depend on the other cases; amplitudes c times as large give c*c times the result. All writes stay inside the result if 2*(nmax-1) < n. That this is so for every allowed nmax <= n/2 + 1 is refuted: with even n and nmax = n/2 + 1, as in the repository's own test, the last frequency is written behind the end of the array, which the compiled loops do not check. The transfer functions for finite depth are one quadratic function: for a sum of two frequencies, for a frequency with itself, and for a difference with one frequency and wave number negated. For wave numbers of deep water the transfer functions of sum frequencies of finite and of infinite depth are equal. Those of difference frequencies for finite depth tend to the one for infinite depth as the depth grows. The change of the mean level by a single frequency tends to zero, which is what is used for infinite depth.", "quantifier": "all amplitudes, frequencies, depths, numbers of cases and frequencies and all limits nmin, nmax", "why_tests_cant": "The test compares two vectors for one case with constant amplitudes and does not see the write behind the end; the position of each term for all numbers of cases and frequencies and the bound on nmax are statements about all sizes.", "anchors": ["src/wafo/_misc_numba.py:disufq", "src/wafo/_misc_numba.py:_deep_water_disufq", "src/wafo/_misc_numba.py:_finite_water_disufq"]}
