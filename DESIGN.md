# Formal model of wafo-project/pywafo in Rocq (Coq 8.16.1)

## 1. Approach

The code under `/repo` is numerical Python (plus a numba twin and a C twin of a
few inner loops).  The models are shallow: every modelled function becomes a
small total Gallina function that mirrors the source branch by branch, with
exceptions as values (`res`, `Ok`/`Err` in `Base.v`).  Number domains:

* **Z** for algorithms that only compare, subtract and add samples (crossings,
  turning points, rainflow, bins, counts).  A finite set of floats can be scaled
  by a power of two to integers, so for the comparison-only code this is exact;
  rounding of `y0 + h` is the only thing abstracted.
* **nat / lists** for indices, shapes, slices.
* **R** (Coq's standard reals) for polynomial, spline, quadrature, filter,
  spectral and transformation code; floating-point rounding, overflow and NaN
  propagation are not modelled there, except where a comment of the model says
  so: missing samples are `None`, machine epsilon and `store` (truncation by an
  integer dtype) are parameters where the code's behaviour depends on them.
* **any ordered field** (mathcomp `realFieldType`) for the Kalman filter.

File layout (`rocq/theories`), per topic `X`:
`XModel.v` (model only, each definition cites file and lines of /repo),
`XSpec.v` (the small specification, independent of the model's helpers),
`XProofs*.v` (lemmas), `XProps.v` (only the property theorems, each closed by
`exact`, with `Print Assumptions` below, plus non-vacuity `Example`s).

A property that the code violates is proved as `..._refuted`, for every input of
the offending kind where possible, and otherwise with a concrete witness; the
largest correct fragment is proved beside it.  Section 6 lists these findings.

Routines outside the project (scipy's `brentq`, `spsolve`, FFT, eigenvalue and
root finders) are either replaced by their mathematical meaning (FFT: the exact
discrete Fourier sum) or are parameters of the model; theorems then state what
is assumed of the parameter and an example shows an instance.

## 2. Trusted base

* Coq's kernel (8.16.1); no axioms of our own, no kernel check switched off.
* The axioms `Print Assumptions` lists for each theorem: section 5.  They are all
  from Coq's standard library: the classical reals
  (`ClassicalDedekindReals.sig_forall_dec`, `ClassicalDedekindReals.sig_not_dec`),
  `FunctionalExtensionality.functional_extensionality_dep`,
  `Classical_Prop.classic` and, in one example only (an instance of a linear
  solver), `ClassicalEpsilon.constructive_indefinite_description`.
* Libraries used for definitions and lemmas, all checked by the kernel: Coq's
  standard library, Coquelicot (`is_RInt`, `is_derive`, complex numbers), Flocq
  (`mag`) and mathcomp (matrices over ordered fields).  mathcomp seals some
  constants behind module types; they are defined constants, not axioms.
* The reading of the Python/C text: numpy slicing, indexing, broadcasting,
  `sort` and `reshape`, as described in the comments of the models.

## 3. Plan per property

| id | what is modelled | how it is proved |
|----|------------------|------------------|
| C01-C04 | `findcross` (Python, numba, C) over Z samples | state invariant of the scan, refinement to an order-theoretic definition of a crossing |
| C05-C07 | `findextrema`, `findtp` on top of the crossing model | corollaries of C01 for the difference sequence; monotone pieces by induction |
| C08 | `findtc` with `argmin`/`argmax` of slices | slice lemmas + crossing theorems |
| C09 | `ecross` over R | field arithmetic |
| C10-C11 | `_make_findrfc` state machine | loop invariant over prefixes |
| C12-C14 | `_findrfc` and C `findrfc` | loop invariants; out-of-bounds access as an error value |
| C15-C17 | `_findrfc3_astm`, `_findrfc5_astm` with an explicit stack | invariant: crossings(stack)+crossings(rows)=crossings(prefix) |
| C18 | `TurningPoints.cycle_pairs` slices | list induction |
| C19-C20 | `bitwise.py` over unbounded integers | `Z.testbit` extensionality |
| C21-C23, C77, C78 | `markov.py` count matrices as functions nat->nat->Z | finite-sum algebra; refutations by witness |
| C24 | plot flag tables | exhaustive finite tables |
| C25-C27 | `objects.py` cycle matrix, level crossings, wave periods | folds; refutations by witness |
| C28-C34, C79 | `polynomial.py` power-series part and orthogonal fit over R | induction on coefficient lists, quadratic forms |
| C35-C40, C80 | Chebyshev part, `Cheb1d` objects | Clenshaw invariant, cosine sums |
| C41-C45, C81-C84 | `interpolate.py`: piecewise polynomials, smoothing spline, slopes, Stineman | Horner induction, linear algebra (`LinAlg.v`), order arguments |
| C46-C47, C86-C95 | `integrate.py`: Boole, Gauss rules, Clenshaw-Curtis, gaussq, quadgr, Richardson, Romberg | exactness on Chebyshev polynomials, integrals by Coquelicot, loop invariants |
| C48-C50 | `sg_filter/_core.py` | quadratic-form argument, recursion invariants, window lemmas |
| C51-C54, C96-C99 | `kdetools` gridding, density estimates, kernel regression | sums over bins; exact discrete Fourier transform; real inequalities |
| C55-C57, C103 | `wave_theory` | exponential identities, monotonicity of k tanh(kh) |
| C58-C60, C104 | `transform/models.py`, `transform/core.py` | real algebra; refutation by witness |
| C61-C63, C100-C102 | `stats/core.py` peaks over threshold, return periods, extremal index, edf | greedy-selection invariant, sums |
| C64-C65 | `covariance/estimation.py` | circular vs linear correlation sums |
| C105-C110 | `spectrum/core.py`, `covariance/core.py`: covariance function, moments, bandwidth, characteristics | discrete cosine sums, trapezoidal moments, differentiation under the sum |
| C66-C73, C85 | `misc.py` helpers | list induction, arithmetic |
| C74, C111, C112 | `padua.py` | discrete orthogonality on the Padua grid, dimension count, integrals of Chebyshev polynomials |
| C113-C116 | `spectrum/models.py`: the model spectra, `jonswap_peakfact`, `jonswap_seastate`, `phi1` | substitution of the generalized gamma spectrum into Euler's integral, monotonicity of the exponents, implicit differentiation of the dispersion relation |
| C117-C118 | `spectrum/models.py`: class `Spreading` | integral of a real power of the cosine from the functional equations of Euler's integral and log-convexity, change of variable on the circle, orthogonality of cosines |
| C119-C124 | `kdetools/kernels.py`: the kernel classes, their statistics, `Kernel.hns`, `hos`, `_hmns_scale`, name lookup; `kdetools.py`: point evaluation with these kernels | integrals over d dimensions by Euler's beta integral and recursion on d, Gauss' integral from Euler's integral at 1/2, the second moment of the logistic density from the sum of the inverse squares, completing the square for the optimal bandwidth, order statistics under affine maps |
| C125-C126 | `kdetools.py`: constructors of `KDE` and `TKDE`, bandwidth checks, default limits, local bandwidths, `get_args`, transformation and back, `_scale_pdf`, evaluation of `TKDE` at points and on a grid | the estimate of C119 with the bandwidths the constructor computes, geometric mean of positive values, change of variable for Riemann integrals in every coordinate, induction on the number of coordinates |
| C127-C128 | `kernels.py`: `qlevels` with its cell sizes, cumulated mass and table, `qlevels2` with numpy's percentile rules | the table is nonincreasing and `tranproc` stays close to it (C81), sums over a permutation, counting in a sorted list; refutations by witness |
| C129 | `dctpack.py`: `dctn`, `idctn`, `_raw_dctn`, `_get_shape`, `_get_axes`; row transforms of types 2 and 3 as sums | loop invariant over the rotated array; separable sums swapped; orthogonality of the cosines |
| C130 | `stats/_continuous_distns.py`: `_pdf`, `_cdf`, `_ppf`, `_sf`, `_isf`, `_logpdf`, `_logcdf`, `_logsf` of 37 classes, `stats/distributions.py`: `truncrayleigh_gen` | one specification `coherent`, proved for each distribution by derivatives (two-piece formulas glued at the joint) and algebra of powers; consequences for every coherent distribution |
| C131 | `stats/_continuous_distns.py`: `_norm_*`, 14 classes built on them with `_ppf`, 4 without, the branches of `_truncnorm_*` | Gaussian integral from the kernel proofs gives limits of `ndtr`, intermediate values give `ndtri`; then as C130 |
| C132 | `stats/_distn_infrastructure.py`: `_fitstart`, `_get_fixed_fit_value`, `_convert_fshapes2num`, `_unpack_args_kwds`, `_reduce_func2`, `_get_optimizer`, `_fit` over keyword dictionaries | every step described by its dictionary lookups, then one equation for the whole fit; optimiser and objective arbitrary |
| C133 | `stats/_distn_infrastructure.py`: `_penalized_nlogps` and its helpers | telescoping sum of spacings and the tangent of the logarithm (Jensen) |
| C134 | `stats/distributions.py`: `pbinom` with the discrete Fourier transform of the characteristic function, scipy's public `pmf`, `cdf`, `sf` | against the enumeration of all outcomes of n trials: recursion on the trials, inversion of the transform |
| C135 | `demos.py`: `magic` and its three constructions, with the in-place exchanges | residues and a reflection for odd orders, blocks of four for doubly even, exact set of exchanged cells for singly even orders |
| C136 | `misc.discretize` and its two methods, exact loops with fuel | invariants of the loops; the adaptive rounds against a relation between point sets and marks |
| C137 | `misc.good_bins` with its error branches | decades by logarithms; maximality among the numbers 1, 2, 5 times powers of ten |
| C138 | `misc._histogram`, `_make_bars`; `np.histogram` from its documentation | partition of the range by the intervals; induction on the bars |
| C139 | `misc.fourier` with trapz | orthogonality of the sampled harmonics by roots of unity |
| C140 | `misc.findpeaks` on top of the models of `findtp` and `findrfc` | alternation of the rainflow turning points; selection by a sorting permutation |
| C141 | `LevelCrossings` constructor, `estimate_mean_and_stdev`, `extrapolate` | exact line through the signed roots; records and copies counted by induction |
| C142 | the autoregressive process of `LevelCrossings.sim` | trigonometric identities for the coefficients; covariances by induction over time; square summable response |
| C143 | `CovData1D.sim` by circulant embedding | orthogonality of the discrete Fourier transform; the columns as linear forms and their inner products |
| C144 | `CovData1D.simcond`, `sptoeplitz` | weights as linear forms; orthogonality to the present values and the quadratic form; window as a series of its own |
| C145 | `savitzky_golay`, `savitzky_golay_piecewise` | convolution as a weighted sum; normal equations and minimal norm from the pseudo-inverse; induction over the cuts |
| C146 | `stirlerr`, `betaloge`, `binomln` | steps of the error against steps of the series by their second derivatives; Wallis' product for the constant; convexity for non-integers |
| C147 | `getshipchar`, `gravity` | powers are inverse to each other; rounding is monotone; gravity as a quadratic in sin^2 |
| C148 | the link functions of `stats/estimation.py` | logarithm of the survival function of each distribution in closed form, then both directions by algebra; formulas for the wrong values |
| C149 | `Profile`: grid, evaluation, `get_bounds` | crossings of a hill: at most one up and one down, by C01's theorem on findcross; induction over the walk from the estimate and over the search |
| C150 | `FitDistribution`: `_hessian`, covariance, intervals, p-value, density plot | invariant over the loops that fill the matrix; finite differences of a quadratic form by unit vectors; blocks of free parameters; the theorems of C138 for the density |
| C151 | `SpecData2D.moment`, `rotate` | one lemma for a term of the form k(w) times an integral over the angle, applied to each of the terms; linearity and shift of Simpson's rule; reals modulo 2 pi |
| C152 | `gaussian`: `cdfnorm2d`, `prbnorm2d`, `cdflomax` | the arrays with their index sets, value by value; reflections of the quadrature; moments of the rules by integer arithmetic; Mills' inequality for the density of local maxima |
| C153 | `containers`: `PlotData.eval_points`, `integrate`, `to_cdf`, `AxisLabels.labelfig`, `transformdata_1d`, `set_axis`, `_get_contour_levels` | induction over the nodes with Chasles' relation: the trapezoidal sum is the integral of the polygon; texts of an axis as a record |
| C154 | `polynomial`: `chebvalnd`, `chebgridnd`, `chebvandernd`, `chebfitnd`, `chebfit_dct` | arrays as shape and entries by index; induction over the variables, sums over multi-indices, one discrete orthogonality per axis |
| C155 | `spectrum.core.SpecData1D.resample` | state with exceptions; the padded grid by cases, the loop by induction on fuel, Stineman's curve between two zeros by the signs of the slopes |
| C156 | `interpolate.sgolay2d` | matrices as functions; Moore-Penrose inverses by Greville's recursion, independence of the columns by counting roots twice |
| C157 | `polynomial.padefit, padefitlsq` | polynomials as coefficient functions; uniqueness by order of contact, recovery of rational functions by counting roots |
| C158 | `integrate_oscillating` | complex numbers of Coquelicot; exactness by the fundamental theorem of calculus and interpolation, the loop over bisections by an invariant |
| C159 | `misc.common_shape`, `args_flat`, `num2pistr` | shapes as lists of lengths, arrays in row-major order; the order of shapes by induction, elements by their indices |
| C160 | `TimeSeries.wave_parameters`, `wave_height_steepness` | on top of the models of findtc (C08) and ecross (C09); slices as tables of functions of the wave number, zeros of chords by real arithmetic |
| C161 | `CyclePairs.damage`, `get_minima_and_maxima` | sums of real powers; induction over cycles, turning points split into rises and falls (C18) |
| C162 | `_misc_numba.disufq` | the loops as a list of writes in program order; the sum at each position by induction, positions by arithmetic |
| C75 | `dctpack.shiftdim` on arrays of any rank | rotation of index tuples |
| C76 | aliasing behaviour as explicit input-after-call values | refutations by witness |

Nothing in the list is declared inexpressible.

## 4. What is modelled and what is not

Generated from the citations in the model files and the syntax tree of the sources: a function counts as modelled
when a definition of the model cites lines of its body; the simplifications are in the comments of those definitions.
A function that is listed as modelled may have branches (plotting, messages, optional arguments) that its model leaves out;
the comment says which.  Test, demo, documentation and packaging modules are left out of the table.

* `src/wafo/_misc_numba.py` (`AstmModel.v`, `CrossModel.v`, `DisuModel.v`, `RfcModel.v`)
  - modelled: _findcross, _make_findrfc, a_le_b, a_lt_b, _findrfc, findrfc, _finite_water_disufq, _deep_water_disufq, disufq, _findrfc3_astm, _findrfc5_astm, findrfc_astm.
  - not modelled: findcross.
* `src/wafo/bitwise.py` (`BitsModel.v`)
  - modelled: getbit, getbits, setbit, setbits.
  - not modelled: nothing.
* `src/wafo/containers.py` (`FlagsModel.v`, `PdatModel.v`)
  - modelled: PlotData.__init__, PlotData.copy, PlotData.eval_points, PlotData.to_cdf, PlotData._get_fi_xi, PlotData.integrate, AxisLabels.__init__, AxisLabels.__repr__, AxisLabels.__str__, AxisLabels.copy, AxisLabels._add_title_if_fun_is_set_title, AxisLabels._labelfig, AxisLabels.labelfig, set_axis, plot1d, plotscale, plotflag2plottype_1d, plotflag2transform_id, transform_id2plotflag2, transformdata_1d, _get_contour_levels.
  - not modelled: empty_copy, _set_seed, PlotData._plot_children, PlotData.plot, PlotData.setplotter, PlotData.show, Plotter_1d.__init__, Plotter_1d.show, Plotter_1d.plot, Plotter_1d._plot, set_plot_scale, Plotter_2d.__init__, Plotter_2d._plot, plot2d, test_plotdata.
* `src/wafo/covariance/core.py` (`AliasModel.v`, `CsimModel.v`, `ScondModel.v`, `SpcovModel.v`)
  - modelled: CovData1D.tospecdata, CovData1D.sim, CovData1D._get_lag_where_acf_is_almost_zero, CovData1D._get_acf, CovData1D._split_cov, CovData1D._update_window, CovData1D.simcond.
  - not modelled: _set_seed, rndnormnd, CovData1D.__init__, CovData1D.setlabels, CovData1D.sampling_period, CovData1D._is_valid_acf, sptoeplitz, _test_covdata, main.
* `src/wafo/covariance/estimation.py` (`CovModel.v`)
  - modelled: CovarianceEstimator._estimate_lag, CovarianceEstimator.tocovdata.
  - not modelled: sampling_period, CovarianceEstimator.__init__.
* `src/wafo/dctpack.py` (`DctnModel.v`, `ShiftModel.v`)
  - modelled: dct, idst, _get_shape, _get_axes, _raw_dctn, dctn, dstn, idctn, num_leading_ones, no_leading_ones, shiftdim.
  - not modelled: dst, idct, idstn, example_dct2.
* `src/wafo/demos.py` (`MagicModel.v`)
  - modelled: _magic_odd_order, _magic_doubly_even_order, _magic_even_order, magic.
  - not modelled: peaks, humps.
* `src/wafo/gaussian.py` (`BvnModel.v`)
  - modelled: cdflomax, cdfnorm2d, fi, prbnorm2d, bvd.
  - not modelled: Rind.__init__, Rind.initialize, Rind.set_constants, Rind.__call__, test_rind, prbnormtndpc, prbnormndpc, prbnormnd.
* `src/wafo/graphutil.py`: not modelled (7 functions and methods).
* `src/wafo/integrate.py` (`AdaptModel.v`, `QuadModel.v`)
  - modelled: clencurt, romberg, _expand_roots, p_roots, q5_roots, q6_roots, q7_roots, q8_roots, q9_roots, _Gaussq._get_dx, _Gaussq._nodes_and_weights, _Gaussq._initialize_trace, _Gaussq._get_jacob, _Gaussq.__call__, richardson, _Quadgr._change_variable_and_integrate, _Quadgr._nodes_and_weights, _Quadgr._get_best_estimate, _Quadgr._extrapolate, _Quadgr._integrate, _Quadgr._order_limits, _Quadgr.__call__, boole.
  - not modelled: _assert, _assert_warn, _h_roots_newton, h_roots, _j_roots_newton, j_roots, la_roots, _get_theta, _la_roots_newton, _p_roots_newton_start, _p_roots_newton, _p_roots_newton1, qrule, _Gaussq._plot_trace, _Gaussq._plot_final_trace, _Gaussq._warn_msg, _Gaussq._initialize, _Gaussq._revert_nans_with_old, _Gaussq._update_error, _plot_error, _print_headers, _stack_values_and_errors, _print_data, _print_values_and_errors, _display, chebychev, qdemo, main.
* `src/wafo/integrate_oscillating.py`: not modelled (37 functions and methods).
* `src/wafo/interpolate.py` (`PPModel.v`, `Sg2Model.v`, `SgModel.v`, `SlopesModel.v`, `SplineModel.v`)
  - modelled: _assert, _check_window_size, savitzky_golay, _get_turnpoint, savitzky_golay_piecewise, sgolay2d, PPform.__init__, PPform.__call__, PPform.linear_extrapolate, PPform.derivative, PPform.integrate, SmoothSpline.__init__, SmoothSpline._check, SmoothSpline._spacing, SmoothSpline._init_poly_coefs, SmoothSpline._poly_coefs, SmoothSpline._compute_coefs, SmoothSpline._compute_qdq, SmoothSpline._compute_r, SmoothSpline._estimate_p, SmoothSpline._compute_qq, SmoothSpline._compute_u, _edge_case, _akima_slope, _pchip_slope, _parabola_slope, _stineman_slope, _steffen_slope, _fritsch_carlson_slope, _secant_slope, _catmull_rom_slope, _cardinal_slope, slopes, stineman_interp.
  - not modelled: StinemanInterp.__init__, StinemanInterp.__call__, CubicHermiteSpline.__init__, Pchip.__init__, interp3, somefunc, test_interp3, test_smoothing_spline, compare_methods, demo_monoticity, test_func, test_pp, test_docstrings.
* `src/wafo/kdetools/gridding.py` (`GridModel.v`)
  - modelled: bitget, accumsum, accum, _gridcount_nd, _gridcount_1d, gridcount.
  - not modelled: _assert, accumsum_sparse.
* `src/wafo/kdetools/kdetools.py` (`KdeModel.v`, `TkdeModel.v`)
  - modelled: _KDE.sigma, _KDE.get_args, _KDE._check_shape, _KDE.eval_points, TKDE.__init__, TKDE._check_xmin, TKDE._transform, TKDE._scale_pdf, TKDE._eval_grid, KDE.__init__, KDE._replace_negatives_with_default_hs, KDE._check_hs, KDE._invert_hs, KDE.alpha, KDE.alpha, KDE._make_flat_grid, KDE._kernel_weights, KDE._eval_grid_fast, KDE._eval_grid, KDE._moment_fun, KDE._loop_over_data, KDE._loop_over_points, KDE._eval_points, KRegression._eval_gridfun, BKRegression.get_grid, BKRegression._wilson_score, BKRegression._credible_interval, BKRegression.prb_ci, BKRegression.prb_empirical, BKRegression.prb_smoothed.
  - not modelled: _assert, _assert_warn, _invnorm, _logit, _KDE.__init__, _KDE.inc, _KDE.inc, _KDE.dataset, _KDE.dataset, _KDE.n, _KDE.d, _KDE.xmin, _KDE.xmin, _KDE._check_xmin, _KDE.xmax, _KDE.xmax, _KDE._check_xmax, _KDE.eval_grid_fast, _KDE._eval_grid_fast, _KDE.eval_grid, _KDE._eval_grid, _KDE._add_contour_levels, _KDE._make_object, _KDE.eval_grid_fun, _KDE._eval_points, TKDE.inc, TKDE.inc, TKDE.hs, TKDE.hs, TKDE._inverse_transform, TKDE._interpolate, TKDE._get_targs, TKDE._eval_grid_fast, TKDE._eval_points, KDE.hs, KDE.hs, KDE.inc, KDE.inc, KDE.norm_factor, KRegression.__init__, KRegression.eval_grid_fast, KRegression.eval_grid, BKRegression.__init__, BKRegression.hs_e, BKRegression.hs_e, BKRegression._set_smoothing, BKRegression._get_max_smoothing, BKRegression.prb_search_best.
* `src/wafo/kdetools/kernels.py` (`KernelModel.v`, `QlevModel.v`)
  - modelled: qlevels, qlevels2, iqrange, sphere_volume, _Kernel.norm_factor, _Kernel.norm_kernel, _Kernel.get_ste_constant, _Kernel.get_amise_constant, _Kernel._effective_support, _KernelMulti.norm_factor, _KernelMulti._kernel, _KernelProduct.norm_factor, _KernelProduct._kernel, _KernelRectangular._kernel, _KernelRectangular.norm_factor, _KernelTriangular._kernel, _KernelGaussian._kernel, _KernelGaussian.norm_factor, _KernelGaussian.deriv4_6_8_10, _KernelGaussian.psi, _KernelLaplace._kernel, _KernelLaplace.norm_factor, _KernelLogistic._kernel, Kernel.__init__, Kernel.hns, Kernel.hos, Kernel._hmns_scale.
  - not modelled: _assert, _assert_warn, _Kernel.__init__, _Kernel.name, _Kernel._kernel, _Kernel.kernel, _Kernel.effective_support, _KernelMulti.__init__, Kernel.name, Kernel.stats, Kernel.effective_support, Kernel.hmns, Kernel._get_g, Kernel.hste, Kernel.hisj, Kernel.hstt, Kernel._estimate_psi, Kernel.hscv, Kernel._get_grid_limits, Kernel.hldpi, Kernel.norm_factor, Kernel.eval_points, mkernel.
* `src/wafo/markov.py` (`AliasModel.v`, `MarkovModel.v`)
  - modelled: nt2fr, fr2nt, _raw_iter, _raise_kind_error, nt2cmat, cmat2nt, mctp2tc, mktestmat.
  - not modelled: iter_, iter_mc, mctp2rfc, mc2rfc, cmatplot, arfm2mctp.
* `src/wafo/misc.py` (`BcastModel.v`, `CovModel.v`, `CrossModel.v`, `DiscModel.v`, `EcrossModel.v`, `FourModel.v`, `GeomModel.v`, `HistModel.v`, `IndexModel.v`, `LgamModel.v`, `PeakModel.v`, `ProcModel.v`, `ProfModel.v`, `ResaModel.v`, `RfcModel.v`, `SelectModel.v`, `ShipModel.v`)
  - modelled: lfind, piecewise, lazywhere, lazyselect, rotation_matrix, rotate, rotate_2d, spaceline, narg_smallest, args_flat, index2sub, sub2index, sub_dict_select, parse_kwargs, moving_average, detrendma, ecross, findcross, findextrema, findpeaks, findrfc, rfcfilter, findtp, findtc, findoutliers, common_shape, argsreduce, stirlerr, _get_max_deadweight, getshipchar, binomln, _betaln3, betaloge, gravity, nextpow2, discretize, _discretize_linear, _discretize_adaptive, polar2cart, cart2polar, trangood, tranproc, good_bins, _make_bars, _histogram, num2pistr, fourier.
  - not modelled: xor, check_random_state, valarray, now, _assert, is_numlike, JITImport.__init__, JITImport.__getattr__, Bunch.__init__, Bunch.keys, Bunch.update, printf, _findcross, findrfc_astm, ndgrid, plot_histgrm.
* `src/wafo/objects.py` (`ArModel.v`, `CyclesModel.v`, `DamModel.v`, `LcxModel.v`, `WparModel.v`)
  - modelled: LevelCrossings.__init__, LevelCrossings.estimate_mean_and_stdev, LevelCrossings.extrapolate, LevelCrossings._extrapolate, LevelCrossings._make_increasing, LevelCrossings.sim, CyclePairs.__init__, CyclePairs.amplitudes, CyclePairs.damage, CyclePairs.get_minima_and_maxima, CyclePairs.level_crossings, CyclePairs.cycle_matrix, CyclePairs._dcp2cmat, CyclePairs._discretize_cycle_pairs, TurningPoints.__init__, TurningPoints.rainflow_filter, TurningPoints.cycle_pairs, TimeSeries.wave_parameters, TimeSeries.wave_height_steepness, TimeSeries._default_index, TimeSeries._get_start_index, TimeSeries._get_step, TimeSeries._interpolate, TimeSeries.wave_periods.
  - not modelled: _invchi2, LevelCrossings.trdata, CycleMatrix.__init__, TurningPoints.cycle_astm, mat2timeseries, TimeSeries.__init__, TimeSeries.sampling_period, TimeSeries.tocovdata, TimeSeries._get_bandwidth_and_dof, TimeSeries.tospecdata, TimeSeries.trdata, TimeSeries.turning_points, TimeSeries.trough_crest, TimeSeries.reconstruct, TimeSeries.plot_wave, TimeSeries.plot_sp_wave, test_docstrings.
* `src/wafo/padua.py` (`PaduaModel.v`)
  - modelled: _find_m, padua_points, error_estimate, padua_fit, _compute_moments, padua_cubature, padua_val.
  - not modelled: _ExampleFunctions.franke, _ExampleFunctions.half_sphere, _ExampleFunctions.poly_degree20, _ExampleFunctions.exp_fun1, _ExampleFunctions.exp_fun100, _ExampleFunctions.cos30, _ExampleFunctions.constant, _ExampleFunctions.exp_xy, _ExampleFunctions.runge, _ExampleFunctions.abs_cubed, _ExampleFunctions.gauss, _ExampleFunctions.exp_inv, _ExampleFunctions.__call__, paduavals2coefs, padua_fit2.
* `src/wafo/polynomial.py` (`ChebModel.v`, `ChndModel.v`, `OrthoModel.v`, `PadeModel.v`, `PolyModel.v`)
  - modelled: polyint, polyder, polydeg, orthoval, ortho2poly, orthofit, polyreloc, polyrescl, polytrim, poly2hstr, poly2str, polyshift, polyishift, map_from_interval, map_to_interval, poly2cheb, cheb2poly, chebextr, chebroot, chebpoly, chebfit, chebfit_dct, chebinterpolate, idct, _chebval, chebval, chebder, chebint, Cheb1d.__init__, Cheb1d.__call__, Cheb1d.__array__, Cheb1d.__repr__, Cheb1d.__len__, Cheb1d.__str__, Cheb1d.__neg__, Cheb1d.__pos__, Cheb1d.__add__, Cheb1d.__radd__, Cheb1d.__sub__, Cheb1d.__rsub__, Cheb1d.__eq__, Cheb1d.__ne__, Cheb1d.__setattr__, Cheb1d.__getattr__, Cheb1d.__getitem__, Cheb1d.__setitem__, Cheb1d.__iter__, Cheb1d.integ, Cheb1d.deriv, padefit, chebvandernd, chebfitnd, chebvalnd, chebgridnd.
  - not modelled: test_pade, padefitlsq, test_chebfit1d, test_chebfit2d, test_interpolate, main, test_polydeg.
* `src/wafo/sg_filter/_core.py` (`AliasModel.v`, `FilterModel.v`, `KalmanModel.v`)
  - modelled: _Filter.__init__, _Filter._normalized_weights, SmoothNd.__call__, HodrickPrescott._get_matrix, HodrickPrescott.__call__, Kalman.__init__, Kalman.reset, Kalman._none_or_atleast_2d, Kalman.A, Kalman.A, Kalman._set_A, Kalman.Q, Kalman.Q, Kalman._set_Q, Kalman.H, Kalman.H, Kalman._set_H, Kalman.P, Kalman.P, Kalman._set_P, Kalman._init_first, Kalman._first_state, Kalman._filter_first, Kalman._predict_state, Kalman._predict_covariance, Kalman._compute_gain, Kalman._update_state_from_observation, Kalman._update_covariance, Kalman._filter_main, Kalman.__call__, HampelFilter.localwindow, HampelFilter.smgauss, HampelFilter._adaptive, HampelFilter._fixed, HampelFilter.__call__.
  - not modelled: _assert, SavitzkyGolay.__init__, SavitzkyGolay.smooth_last, SavitzkyGolay.__call__, SavitzkyGolay.smooth, evar, _Filter._tensor_rank, _Filter._smoothness_par, _Filter._smoothness_limits, _Filter._lambda_tensor, _Filter._gamma_fun, _Filter._initial_guess, _Filter._get_start_condition, _Filter._studentized_residuals, _Filter.robust_weights, _Filter._average_leverage, _Filter.check_smooth_parameter, _Filter.gcv, _Filter._smooth, _Filter.__call__, SmoothNd.__init__, SmoothNd.weightstr, SmoothNd.weight, SmoothNd.weight, SmoothNd._init_filter, SmoothNd.num_steps, smoothn, HodrickPrescott.__init__, HampelFilter.__init__, HampelFilter._check, HampelFilter._init, HampelFilter._filter.
* `src/wafo/sg_filter/demos.py`: not modelled (13 functions and methods).
* `src/wafo/spectrum/core.py` (`DmomModel.v`, `ResaModel.v`, `SpcovModel.v`, `SpectModel.v`)
  - modelled: SpecData1D.freqtype, SpecData1D.lagtype, SpecData1D.tocovdata, SpecData1D.moment, SpecData1D.nyquist_freq, SpecData1D.sampling_period, SpecData1D.resample, SpecData1D.normalize, SpecData1D.bandwidth, SpecData1D.characteristic, SpecData1D.setlabels, SpecData2D.rotate, SpecData2D.moment.
  - not modelled: _set_seed, qtf, plotspec, SpecData1D.__init__, SpecData1D.freqtype, SpecData1D._get_default_dt_and_rate, SpecData1D._check_dt, SpecData1D._check_cov_matrix, SpecData1D.tocov_matrix, SpecData1D.to_linspec, SpecData1D.to_mm_pdf, SpecData1D.to_t_pdf, SpecData1D._covinput_t_pdf, SpecData1D.to_mmt_pdf, SpecData1D._cov2mmtpdf, SpecData1D._covinput_mmt_pdf, SpecData1D._cov2mmtpdfexe, SpecData1D._cleanup, SpecData1D.to_specnorm, SpecData1D.sim, SpecData1D.sim_nl, SpecData1D.stats_nl, SpecData1D.testgaussian, SpecData1D.interp, SpecData2D.__init__, SpecData2D.toacf, SpecData2D.tospecdata, SpecData2D.sim, SpecData2D.sim_nl, SpecData2D.interp, SpecData2D.normalize, SpecData2D.bandwidth, SpecData2D.setlabels, main, test_mm_pdf, test_docstrings.
* `src/wafo/spectrum/models.py` (`DmomModel.v`, `SeaModel.v`, `SpreadModel.v`)
  - modelled: _gengamspec, ModelSpectrum.chk_seastate, Bretschneider.__init__, Bretschneider.__call__, jonswap_peakfact, jonswap_seastate, Jonswap.__init__, Jonswap._chk_extra_param, Jonswap._localspec, Jonswap._check_parametric_ag, Jonswap._parametric_ag, Jonswap._custom_ag, Jonswap._integrate_ag, Jonswap._pre_calculate_ag, Jonswap.peak_e_factor, Jonswap.__call__, phi1, Tmaspec.phi, Tmaspec.__call__, Torsethaugen._init_spec, McCormick.__init__, McCormick._localoptfun, OchiHubble._init_spec, Wallop.__init__, Spreading.__init__, Spreading.method, Spreading.method, Spreading.__call__, Spreading._normalize_angle, Spreading._get_main_direction, Spreading.chk_input, Spreading.cos2s, Spreading.wrap_norm, Spreading.fourier2distpar, Spreading.fourier2x, Spreading._init_frequency_dependent_spreading, Spreading._donelan_spread, Spreading._banner_spread, Spreading.spread_parameter_s, Spreading._check_theta, Spreading.tospecdata2d.
  - not modelled: sech, ModelSpectrum.__init__, ModelSpectrum.tospecdata, ModelSpectrum._chk_extra_param, ModelSpectrum.__call__, Tmaspec.__init__, Torsethaugen.__init__, Torsethaugen.__call__, Torsethaugen._chk_extra_param, OchiHubble.__init__, OchiHubble.__call__, OchiHubble._chk_extra_param, Spreading.poisson, Spreading.sech2, Spreading.mises, Spreading.box, Spreading.fourier2a, Spreading.fourier2k, Spreading.fourier2b, Spreading.fourier2d, Spreading._mitsuyasu_spread, Spreading._frequency_independent_spread, Spreading._donelan, Spreading._r1ofsech2, _test_some_spectra, _test_directional_spectra, _test_spreading, test_docstrings, main.
* `src/wafo/stats/_continuous_distns.py`: not modelled (741 functions and methods).
* `src/wafo/stats/_distn_infrastructure.py` (`FitModel.v`, `MoranModel.v`)
  - modelled: _resolve_ties, _log_dprb, _nlogps_and_penalty, _penalized_nlogps, _unpack_loc_scale, _get_fixed_fit_value, _convert_fshapes2num, _unpack_args_kwds, _reduce_func2, _get_optimizer, _warn_if_no_success, _fitstart, fit, _fit, fit2.
  - not modelled: nothing.
* `src/wafo/stats/core.py` (`AliasModel.v`, `PotModel.v`, `StatsModel.v`)
  - modelled: edf, edfcnd, _check_umin_umax, reslife, dispersion_idx, decluster, _remove_index_to_data_too_close_to_each_other, returnperiod2sf, sf2returnperiod, findpot, _find_ok_peaks, declustering_time, interexceedance_times, extremal_idx.
  - not modelled: now, valarray, _cdff, _cdft, _invt, _cdfchi2, _invchi2, _cdfnorm, _invnorm, _check_nmin, _check_nu, _logit, _logitinv, RegLogit.__init__, RegLogit.check_xy, RegLogit.fit, RegLogit.compare, RegLogit.anode, RegLogit.summary, RegLogit.predict, RegLogit.loglike, _test_dispersion_idx, _test_findpot, _test_reslife, test_reglogit, test_reglogit2, test_sklearn0, test_sklearn, test_sklearn1, test_doctstrings.
* `src/wafo/stats/distributions.py` (`PbinModel.v`, `RvModel.v`)
  - modelled: truncrayleigh_gen._argcheck, truncrayleigh_gen._fitstart, truncrayleigh_gen._pdf, truncrayleigh_gen._logpdf, truncrayleigh_gen._cdf, truncrayleigh_gen._logsf, truncrayleigh_gen._sf, truncrayleigh_gen._ppf, pbinom.__init__, pbinom._rvs, pbinom._pmf, pbinom._sf, pbinom._cdf, pbinom._stats, pbinom._local_pmf, pbinom._fft_pmf, pbinom._chi.
  - not modelled: _betaprime_fitstart, _bradford_fitstart, _chi_fitstart, _f_fitstart, _weibull_min_fitstart, _genpareto_fitstart, _genextreme_fitstart, _lognorm_fitstart, _gilbrat_fitstart, _ncx2_fitstart, _nct_fitstart, _reciprocal_fitstart, truncrayleigh_gen._stats, truncrayleigh_gen._entropy.
* `src/wafo/stats/estimation.py` (`EstModel.v`, `LinkModel.v`, `ProfModel.v`)
  - modelled: _burr_link, _expon_link, _weibull_min_link, _exponweib_link, _genpareto_link, _gumbel_r_link, _genextreme_link, _genexpon_link, _rayleigh_link, _trunclayleigh_link, _CommonProfile.__init__, _CommonProfile._get_plot_labels, _CommonProfile._loglike_max, _CommonProfile._default_i_fixed, _CommonProfile._get_not_fixed_mask, _CommonProfile._check_i_fixed, _CommonProfile._set_indexes, _CommonProfile._local_link, _CommonProfile._correct_profile_max, _CommonProfile._profile_optimum, _CommonProfile._get_p_opt, _CommonProfile._get_profile, _CommonProfile._prettify_profile, _CommonProfile._get_variance, _CommonProfile._myinvfun, _CommonProfile._approx_p_min_max, _CommonProfile._p_min_max, _CommonProfile._adaptive_pvec, _CommonProfile._get_pvec, _CommonProfile._update_p_opt, _CommonProfile._search_p_min_max, _CommonProfile._profile_fun, _CommonProfile._check_bounds, _CommonProfile.get_bounds, _CommonProfile.plot, Profile._get_variance, Profile._p_min_max, FitDistribution.__init__, FitDistribution.par, FitDistribution._get_fixed_par, FitDistribution.fit, FitDistribution._get_confidence_interval, FitDistribution._get_scores, FitDistribution.method, FitDistribution.method, FitDistribution.__repr__, FitDistribution._hessian, FitDistribution._nnlf, FitDistribution._nlogps, FitDistribution._invert_hessian, FitDistribution._compute_cov, FitDistribution.fitfun, FitDistribution.profile, FitDistribution._get_grid, FitDistribution._staircase, FitDistribution._get_empirical_pdf, FitDistribution._pvalue, test_doctstrings.
  - not modelled: log, log1p, _assert_warn, _assert, _assert_index, _assert_not_implemented, chi2isf, chi2sf, norm_ppf, plot_all_profiles, ProfileQuantile.__init__, ProfileQuantile._get_p_opt, ProfileQuantile._approx_p_min_max, ProfileQuantile._p_min_max, ProfileQuantile._local_link, ProfileQuantile._myinvfun, ProfileQuantile._get_plot_labels, ProfileProbability.__init__, ProfileProbability._get_p_opt, ProfileProbability._approx_p_min_max, ProfileProbability._p_min_max, ProfileProbability._local_link, ProfileProbability._myinvfun, ProfileProbability._get_plot_labels, _set_rv_frozen_docstrings, rv_frozen.pdf, rv_frozen.logpdf, FitDistribution.profile_quantile, FitDistribution.profile_probability, FitDistribution.ci_sf, FitDistribution.ci_logsf, FitDistribution.ci_quantile, FitDistribution._ci_profile, FitDistribution._fit_summary_text, FitDistribution.plotfitsummary, FitDistribution.plotesf, FitDistribution.plotecdf, FitDistribution.plotepdf, FitDistribution.plotresq, FitDistribution.plotresprb, test1.
* `src/wafo/stats/plot.py`: not modelled (5 functions and methods).
* `src/wafo/transform/core.py` (`ProcModel.v`, `TransModel.v`)
  - modelled: TrCommon.__init__, TrCommon.dist2gauss, TrData.__init__, TrData.trdata, TrData._gauss2dat, TrData._dat2gauss.
  - not modelled: TrCommon.__call__, TrCommon.gauss2dat, TrCommon._gauss2dat, TrCommon.dat2gauss, TrCommon._dat2gauss.
* `src/wafo/transform/estimation.py`: not modelled (5 functions and methods).
* `src/wafo/transform/models.py` (`TransModel.v`)
  - modelled: TrHermite.__init__, TrHermite._check_c3_c4, TrHermite._winterstein1988, TrHermite._winterstein1994, TrHermite._hardening_parameters, TrHermite._set_x_limit, TrHermite._check_monotonicity, TrHermite._set_hardening_model, TrHermite._set_softening_model, TrHermite.set_poly, TrHermite.check_forward, TrHermite._dat2gauss, TrHermite._gauss2dat, TrHermite._solve_quadratic, TrHermite._poly_inv, TrHermite._solve_third_order, TrLinear._transform, TrLinear._dat2gauss, TrLinear._gauss2dat, TrOchi.__init__, TrOchi._par_from_stats, TrOchi._get_par, TrOchi._transform, TrOchi._backward, TrOchi._forward, TrOchi._dat2gauss, TrOchi._gauss2dat, TrOchi._transformgauss.
  - not modelled: _assert, _assert_warn, TrCommon2.trdata, TrHermite.pardef, TrHermite.pardef, main.
* `src/wafo/wave_theory/core.py` (`WaveModel.v`)
  - modelled: hyperbolic_ratio, sensor_typeid, sensor_type, TransferFunction.__init__, TransferFunction.tran, TransferFunction._get_ee_cthxy, TransferFunction._get_zk, TransferFunction._n, TransferFunction._n_t, TransferFunction._n_tt, TransferFunction._n_x, TransferFunction._n_y, TransferFunction._n_xx, TransferFunction._n_yy, TransferFunction._n_xy, TransferFunction._p, TransferFunction._u, TransferFunction._v, TransferFunction._w, TransferFunction._u_t, TransferFunction._v_t, TransferFunction._w_t, TransferFunction._x_p, TransferFunction._y_p, TransferFunction._z_p, wave_pressure.
  - not modelled: test_docstrings, main.
* `src/wafo/wave_theory/dispersion_relation.py` (`WaveModel.v`)
  - modelled: k2w, w2k.
  - not modelled: _assert, _assert_warn.
* `source/c_library/c_functions.c` (`CrossModel.v`, `RfcModel.v`): `findcross`, `findrfc` modelled; the other C functions and all Fortran code (`rindmod`, `mvnprdmod`, `mvn` and friends) are not.

## 5. Print Assumptions

The axioms listed by `Print Assumptions` under each property theorem, grouped by the set of axioms.

**Closed under the global context (no axioms)** - 180 theorems:
c01_findcross_exact, c02_crossings_alternate, c02_kind_u, c02_kind_d, c03_wave_kinds, c03_unknown_kind, c04_c_equals_python, c05_findextrema_exact, c05_findextrema_monotone_between, c06_findtp_total, c06_findtp_none, c06_findtp_turning_points, c06_initial_plateau_refuted, c06_negative_h, c06_findtp_astm, c07_findtp_wave, c08_findtc_default, c08_findtc_wave, c08_findtc_few, c08_kind_all_refuted, c10_rfcfilter_correct, c10_last_leg_refuted, c10_constant_refuted, c11_rfcfilter_idempotent, c11_idempotent_refuted, c12_findrfc_rainflow, c12_rainflow_min_unique, c12_rainflow_min_injective, c12_findrfc_user, c12_findtp_threshold, c13_out_of_bounds_refuted, c13_value_read_is_irrelevant, c13_indices_inside, c13_two_points_refuted, c14_c_equals_numba, c14_c_leading_maximum, c15_astm_conserves_crossings, c15_repeated_values_refuted, c16_astm_rows_exact, c16_repeated_values_refuted, c17_times_do_not_matter, c17_rows_are_input_pairs, c18_cycle_pairs, c18_filtered_too_short_refuted, c25_every_cycle_counted_once, c25_nearest_level_refuted, c25_position_independent_refuted, c26_level_crossings_numbers, c26_names_refuted, c26_negative_extremes_refuted, c27_periods_first_crossing_up, c27_first_crossing_down_refuted, c27_extreme_periods_refuted, c19_get_after_set, c19_other_bits_kept, c19_set_own_bit, c19_last_set_wins, c19_sets_commute, c19_getbit_digit, c20_setbits_getbits, c20_getbits_setbits, c20_setbits_value, c24_plotscale_below_800, c24_plotscale_from_800, c24_transform_applied, c24_roundtrip, c24_roundtrip_refuted, c24_id8_refuted, c24_plottype_domain, c35_empty, c66_lfind_all, c66_lfind_first, c66_narg_smallest, c66_narg_smallest_negative, c66_argsreduce, c66_argsreduce_lengths, c66_argsreduce_mismatch, c67_piecewise, c67_piecewise_otherwise, c67_piecewise_count, c67_lazywhere_fill, c67_lazywhere_f2, c67_lazywhere_arguments, c67_lazywhere_integer_fill_refuted, c67_lazyselect, c67_lazyselect_first_refuted, c72_sub_dict_select, c72_parse_kwargs, c69_sub2index, c69_sub2index_outside, c69_index2sub, c69_index2sub_outside, c69_index_sub_index, c69_sub_index_sub, c71_findoutliers, c71_too_short, c71_single_outlier_refuted, c71_missing_refuted, c71_first_missing_refuted, c90_history, c90_digits_refuted, c49_running_mean, c49_variance, c49_update, c49_session, c49_tracking, c49_reset_refuted, c50_single_refuted, c53_groups, c53_total, c53_partition, c53_default_shape, c61_ok_peaks, c62_total, c62_one_cluster, c62_last_of_first_cluster, c62_later_clusters_lost, c62_documented_refuted, c62_decluster, c56_ids, c56_names, c56_case_insensitive, c56_typeid_lists, c56_type_lists, c56_unknown_ids, c56_unknown_names_refuted, c103_names, c103_ids_refuted, c74_mask_count, c75_shift, c75_undone, c75_compose, c75_period, c75_elements, c75_determined, c75_pad, c75_drop, c75_drop_then_pad, c75_pad_then_drop, c75_singletons_refuted, c117_types, c118_method_numbers, c118_method_names_refuted, c132_method, c135_magic, c135_too_small, c12_alternating, c140_vector, c140_threshold, c140_default, c140_matrix, c140_no_extremes_refuted, c140_one_row_refuted, c140_empty, c149_index, c149_default_index, c153_labels, c153_title, c153_zlab, c153_zlab_refuted, c153_title_refuted, c155_empty, c159_common, c159_conform, c159_error, c159_order, c159_three, c159_rows, c159_one, c159_number, c159_pi, c159_unique, c159_other, c159_sign_refuted, c76_edf_list, c76_edfcnd, c161_rising, c161_falling, c161_mixed, c161_ends_refuted.

**`ClassicalDedekindReals.sig_forall_dec`** - 12 theorems:
c21_other_kinds_raise, c23_fr2nt_refuted, c28_negative_order, c53_shape_refuted, c125_shape, c126_grid_order, c129_zero_length, c129_wrong_count, c129_axis_outside, c149_first_free_refuted, c154_vander_errors, c157_refused.

**`ClassicalDedekindReals.sig_forall_dec`, `FunctionalExtensionality.functional_extensionality_dep`** - 258 theorems:
c09_ecross_line, c09_ecross_pointwise, c09_ecross_range, c27_crossing_periods_positive, c21_cmat2nt, c21_kinds_agree, c22_nt2cmat_cmat2nt, c22_cmat2nt_nt2cmat, c23_nt2fr_correct_iff, c23_nt2fr_refuted, c77_iter_nonnegative, c77_iter_consistent, c77_iter_fixpoint, c78_mktestmat_support, c78_diagonal_zero_refuted, c28_polyder, c28_derivative_unique, c29_polyint, c29_too_few_constants, c30_polyreloc, c30_integer_coefficients_refuted, c31_polyrescl, c32_polyshift, c32_polyishift, c32_ishift_undoes_shift, c32_shift_undoes_ishift, c32_interval_maps, c33_polytrim, c33_value_unchanged, c33_matrix, c34_ortho2poly, c79_orthofit_least_squares, c35_chebval, c35_chebpoly, c35_fill, c35_integer_fill_refuted, c36_cheb2poly, c37_chebder_error_term, c37_chebder_refuted, c37_short_refuted, c38_chebint_refuted, c80_call, c80_trailing_zero_refuted, c80_arithmetic_refuted, c41_piece, c41_first_break, c41_outside, c41_derivative, c41_left_closed_refuted, c41_integer_points_refuted, c41_constant_derivative_refuted, c42_integrate, c42_derivative_of_integral, c81_linear_extrapolate, c81_piecewise_linear_refuted, c81_derivative_refuted, c43_system, c43_interpolates, c43_parameter, c43_two_points_refuted, c43_any_order, c43_variances_not_sorted_refuted, c85_spaceline, c85_spaceline_ends, c85_spaceline_single, c73_nextpow2, c73_nextpow2_zero, c73_nextpow2_vector, c70_moving_average, c70_straight_line, c70_short, c70_window_positive, c70_window_mean_refuted, c70_integer_refuted, c70_detrendma, c70_detrendma_line, c47_expand, c47_any_interval, c92_composite, c92_reverse, c92_one_iteration_refuted, c92_integer_refuted, c94_geometric, c94_bounded, c48_system, c48_optimal, c48_line, c48_moments, c48_smooth, c48_three_points_refuted, c51_counts, c51_mass, c51_moments, c51_nonnegative, c51_scalar, c52_upper_edge_refuted, c52_double_count_refuted, c53_sum, c53_accumsum, c54_credible, c96_value, c96_value_1d, c96_wrong_dimension, c98_range, c98_least_squares, c98_line, c99_grid, c99_extremes, c99_probability, c63_probability_roundtrip, c63_period_roundtrip, c63_nan, c63_decreasing, c63_entrywise, c63_one_event_refuted, c63_types_refuted, c100_gaps, c100_extremal_index, c100_declustering_time, c100_few, c100_real_times_refuted, c101_sorted, c101_increasing, c101_empirical, c101_conditional, c102_mean_excess, c102_default_thresholds, c102_ties_refuted, c102_dispersion, c58_linear, c58_linear_roundtrip, c58_linear_roundtrip_back, c58_linear_is_gaussian, c58_distance, c113_accepts, c113_rejects, c122_iqrange, c125_args, c126_limits, c127_cells, c127_trapezoid, c127_cells_plane, c128_levels, c128_positions, c128_midpoint_refuted, c128_errors, c129_formula, c129_shape, c129_both, c129_any_pair, c129_negative_axes_refuted, c132_fixed_kept, c132_free_found, c132_no_search, c132_two_names, c132_all_fixed, c132_too_many, c132_unknown_keyword, c132_unknown_keyword_refuted, c132_none_refuted, c133_no_ties, c133_support, c136_linear, c136_linear_affine, c136_linear_one, c136_linear_none, c136_adaptive, c136_adaptive_shape, c136_adaptive_none, c144_sparse_matrix, c145_length, c145_polynomial, c145_least_squares, c145_least_noise, c145_constant, c145_line, c145_falling_refuted, c145_derivative_refuted, c145_short_refuted, c145_rejected, c145_pieces, c145_answers, c145_increasing, c145_decreasing, c145_last_point_refuted, c149_bounds, c149_nested, c149_interval, c149_piece, c149_grid, c149_points_refuted, c149_search, c149_maximum, c149_wide, c149_valley_refuted, c150_hessian, c150_symmetric, c150_covariance, c150_quadratic, c150_errors, c152_empty, c152_all, c153_interpolates, c153_order, c153_nan, c153_defaults, c153_outside, c153_reversed, c153_no_children, c153_dimensions, c153_levels, c153_own_levels, c154_points, c154_grid, c154_few_axes_refuted, c154_vander, c156_smoothing, c156_row_slope, c156_column_slope, c156_both, c156_constant, c156_rising, c156_rising_slopes, c156_even, c156_few, c156_accepted, c156_order_refuted, c156_border_refuted, c157_agrees, c157_order, c157_zero_refuted, c157_poly1d_refuted, c158_limits, c158_all_limits, c158_levin_points, c158_open_points, c158_richardson, c76_edf, c76_edf_unchanged, c76_edf_refuted, c76_smoothn, c76_smoothn_finite, c76_smoothn_list, c76_smoothn_weights, c76_smoothn_refuted, c76_simcond, c76_simcond_kept, c76_simcond_list, c76_simcond_range, c76_simcond_refuted, c76_simcond_covariances, c76_simcond_object_refuted, c76_mctp2tc, c76_mctp2tc_range, c76_mctp2tc_refuted, c160_waves, c160_positive, c160_few.

**`ClassicalDedekindReals.sig_forall_dec`, `ClassicalDedekindReals.sig_not_dec`, `FunctionalExtensionality.functional_extensionality_dep`** - 257 theorems:
c35_first_kind, c35_second_kind, c36_poly2cheb, c36_round_trip, c39_chebroot_first, c39_chebroot_second, c39_other_kinds, c39_chebextr, c40_samples, c40_callable, c40_chebinterpolate, c43_minimizes, c44_given_slopes, c44_estimated_slopes, c44_unsorted, c45_decreasing_refuted, c45_flat_end_refuted, c45_two_points_refuted, c82_straight_line, c82_parabola, c82_akima_between, c82_akima_collinear, c82_two_points_refuted, c83_wrong_sign_refuted, c83_neighbours_refuted, c84_bounded, c84_convex, c84_parabola_convex, c84_parabola_increasing_refuted, c84_two_points_refuted, c68_rotation_matrix, c68_rotate, c68_rotate_isometry, c68_rotate_2d_heading, c68_rotate_2d_length, c68_rotate_2d_add, c68_rotate_2d_turn, c46_point_count_refuted, c87_integer_integrand_refuted, c92_exact, c92_zero_tolerance_refuted, c50_fixed, c50_median, c50_range, c50_units, c50_default_width, c50_adaptive_total, c50_adaptive_refuted, c50_single, c50_width, c54_bounds, c54_score, c54_nested, c97_fast, c97_nodes, c97_error, c97_inverse, c55_quotient, c57_two_constants, c103_default_angles, c103_default_depth_refuted, c103_negative_refuted, c103_pressure, c59_root, c59_accepted, c59_equations, c59_mean_refuted, c64_estimate, c64_biased, c64_variance, c64_biased_refuted, c64_largest_at_zero, c64_shift_invariant, c64_scale_squared, c64_deviations, c64_default_lag, c64_normalized, c64_normalized_constant_refuted, c64_missing_values, c64_missing_values_refuted, c64_missing_first_refuted, c65_unbiased_refuted, c65_unbiased_named_refuted, c105_from_zero, c105_uneven, c106_spectrum, c106_roundtrip, c106_roundtrip_back, c106_roundtrip_refuted, c107_units_back, c107_units_covariance, c107_units_power, c76_tospecdata_refuted, c76_tospecdata_default, c108_values, c108_even, c108_units, c108_scale, c108_nonneg, c108_schwarz, c108_names, c109_values, c109_select, c109_names_partial, c109_eps4_refuted, c109_default_refuted, c109_unknown, c109_units, c109_bounds, c109_normalize, c109_normalize_hertz, c109_wavenumber_refuted, c110_values, c110_energy_period, c110_peak, c110_peak_exists, c110_peak_hertz, c110_groupiness, c110_smooth_peak, c110_symmetric, c110_select, c110_names, c110_unknown, c110_range, c110_units, c74_count, c74_points, c74_degree_zero, c74_inside, c74_mask, c74_every_coefficient, c74_values_only, c74_degree_zero_refuted, c111_unisolvent, c111_linear, c111_estimate_zero, c111_estimate_top_degree, c114_peakfact_long, c115_ochihubble_unchecked, c116_still, c117_angle, c118_full_circle, c119_nonneg, c119_symmetric, c119_exchangeable, c119_support, c123_number, c124_lookup, c124_unknown, c124_documented, c124_name_refuted, c125_limits, c125_limits_single_refuted, c129_inverse, c129_unscaled, c129_padded, c129_energy, c129_documented_refuted, c130_interval, c134_stats, c134_local, c138_counts, c138_density, c138_default, c138_errors, c138_caller_refuted, c139_coefficients, c139_default_period, c139_default_m, c139_estimate, c139_recovers, c139_twice_refuted, c139_errors, c141_unknown, c141_extrapolate, c141_default, c141_intensity_refuted, c141_beyond, c143_shape, c143_columns, c143_covariance, c143_close, c143_averaged, c143_zero_end_refuted, c143_not_maximal, c143_few_times, c143_default_refuted, c144_exact, c144_exact_long, c144_approx, c144_approx_fails, c144_default_refuted, c144_series_kept_refuted, c144_marks_refuted, c144_data_kept_refuted, c144_lag, c144_marked, c144_too_short, c144_not_maximal, c144_none_missing, c144_all_missing, c144_other_method, c147_gravity, c147_gravity_even, c147_gravity_increasing, c150_interval, c150_nested, c150_nan, c150_fixed, c151_moments, c151_letters, c151_default, c151_errors, c151_myt, c151_myt_refuted, c151_k2d_refuted, c151_invariant, c151_rotate, c151_rotate_twice, c151_tuple_refuted, c151_axis_refuted, c151_angle_refuted, c152_normal, c152_rayleigh, c152_irregularity, c154_fit_fails, c154_fit_square, c154_fit_refuted, c154_one, c154_two, c154_many, c154_default, c154_three_refuted, c155_resample, c155_keeps, c155_few, c155_one, c155_unknown, c155_unchanged_refuted, c155_nmax_refuted, c155_failure_refuted, c157_best, c157_exact, c157_points, c157_lengths, c157_longer_refuted, c160_short, c160_steepness, c160_names, c160_unknown, c162_terms, c162_cases, c162_scale, c162_outside, c162_all_frequencies_refuted, c162_deep_water, c162_transfer_functions.

**`ClassicalDedekindReals.sig_forall_dec`, `ClassicalDedekindReals.sig_not_dec`, `Classical_Prop.classic`, `FunctionalExtensionality.functional_extensionality_dep`** - 408 theorems:
c43_straight_line, c44_pchip, c45_steffen, c83_monotone, c85_cart_polar_cart, c85_polar_cart_polar, c46_exact, c47_single_node_refuted, c86_chebyshev_first, c86_chebyshev_second, c86_ratio, c86_inverse_root, c86_root, c87_exact, c88_exact, c88_estimate, c88_jacobi, c88_jacobi_documented_refuted, c88_integer_refuted, c89_elementwise, c91_error, c91_nan_refuted, c93_upward, c93_downward, c93_whole_line, c95_exact, c95_table, c95_short_interval_refuted, c55_denominator, c55_zero_denominator, c55_bounded_terms, c57_k2w, c57_deep_wavenumber, c57_deep_frequency, c57_w2k, c57_unique, c57_exists, c57_error, c57_finite_roundtrip, c57_empty_refuted, c103_linear_theory, c103_time_derivatives, c103_space_derivatives, c103_incompressible, c103_irrotational, c103_momentum, c103_boundaries, c58_linear_derivative, c58_ochi, c58_ochi_roundtrip, c58_ochi_derivatives, c58_stale_refuted, c60_inverse, c60_cardano, c60_accepted, c60_hardening_accepted, c60_hardening_parameters, c60_parameters_1988, c60_parameters_1994, c60_moments, c60_quadratic, c60_derivatives, c60_folds_refuted, c60_limit_refuted, c104_interpolates, c104_resampled, c104_range_and_order, c104_lines_are_exact, c104_order_of_rows, c104_derivatives, c104_chain_rule, c104_fourth_derivative_refuted, c104_derivatives_of_lines, c104_duplicates, c104_single_point, c104_fine_table_refuted, c104_above_refuted, c104_below_refuted, c104_table_points_refuted, c104_trdata_statistics, c104_trdata_roundtrip, c105_covariance, c105_variance, c105_variance_largest, c108_exact, c108_line, c109_normalize_refuted, c110_peak_refuted, c110_variances, c110_covariance_partial, c110_covariance_shifted, c110_covariance_refuted, c74_distinct, c74_values_recovered, c111_interpolates, c111_reproduces, c111_polynomial, c111_series, c111_mesh, c111_outside, c111_estimate_zero_degree, c112_integral_of_interpolant, c112_exact, c112_constant, c113_energy, c113_band, c113_formula, c113_peak, c113_sign, c113_units, c113_gamma, c113_gamma_one, c114_energy, c114_no_peak_enhancement, c114_formula, c114_shape, c114_gamma, c114_peakfact_range, c114_peakfact_steep, c114_arguments, c114_parametric_peak, c114_parametric_range_refuted, c114_seastate_refuted, c115_torsethaugen_accepts, c115_torsethaugen_split, c115_torsethaugen_energy, c115_torsethaugen_cutoff_refuted, c115_ochihubble_accepts, c115_torsethaugen_sum, c115_ochihubble_energy_refuted, c115_mccormick_energy, c115_mccormick_best, c115_mccormick_calm_refuted, c115_wallop, c116_range, c116_ratio, c116_tma, c116_tma_deep, c116_wave_number, c117_density, c117_wrapped, c117_accepts, c117_unknown_type, c117_negative, c117_wrapped_linspace_refuted, c117_wrapped_first_angle, c117_sech2_refuted, c118_mitsuyasu, c118_directional, c118_donelan_refuted, c119_integral, c119_multi, c119_product, c119_norm_kernel, c119_empty, c119_gauss_radius_refuted, c120_moments, c120_bending, c120_infinite, c120_triweight_refuted, c120_normal_optimal, c120_optimal, c121_density, c122_equivariant, c122_exchangeable, c122_exists, c122_zero, c122_bound, c122_hos, c123_derivatives, c123_psi, c124_hmns, c125_density, c125_built, c125_wrong_hs, c125_alias_refuted, c126_density, c126_change, c126_mass_refuted, c126_single_refuted, c126_integer_refuted, c126_roundtrip, c126_none, c126_grid, c127_levels, c127_low_refuted, c127_others_refuted, c127_negative, c127_percent, c127_shape, c127_empty, c127_zero, c130_increasing, c130_quantiles_increasing, c130_whole_mass, c130_expon, c130_weibull_min, c130_weibull_max, c130_exponweib, c130_exponpow, c130_gompertz, c130_gumbel_r, c130_gumbel_l, c130_invweibull, c130_genlogistic, c130_logistic, c130_genpareto, c130_genextreme, c130_pareto, c130_lomax, c130_burr, c130_fisk, c130_burr12, c130_mielke, c130_kappa3, c130_powerlaw, c130_uniform, c130_rayleigh, c130_truncrayleigh, c130_reciprocal, c130_truncexpon, c130_bradford, c130_genhalflogistic, c130_halflogistic, c130_cauchy, c130_halfcauchy, c130_hypsecant, c130_anglit, c130_arcsine, c130_laplace, c130_loglaplace, c130_triang, c130_trapz, c131_special, c131_norm, c131_alpha, c131_fatiguelife, c131_halfnorm, c131_johnsonsb, c131_johnsonsu, c131_levy, c131_levy_l, c131_lognorm, c131_gilbrat, c131_powernorm, c131_powerlognorm, c131_truncnorm, c131_truncnorm_central, c131_crystalball, c131_foldnorm_density, c131_foldnorm_values, c131_exponnorm_density, c131_exponnorm_others, c131_invgauss_density, c131_invgauss_log, c131_recipinvgauss_density, c131_recipinvgauss_log, c133_value, c133_bound, c133_product, c133_outside, c133_illegal, c133_too_short, c133_upper_tail, c133_units, c134_constructor, c134_pmf, c134_cdf, c134_sf, c134_close, c134_cdf_monotone, c134_total, c134_total_refuted, c134_sf_entry, c134_sf_entry_refuted, c137_good_bins, c137_number, c137_data, c137_cover, c137_errors, c137_constant_refuted, c139_scale_refuted, c141_normal, c141_given, c141_few, c141_between_levels_refuted, c142_irregularity, c142_yule_walker, c142_recursion, c142_linear, c142_covariance, c142_stationary_limit, c142_start, c142_start_refuted, c143_kept, c146_stirlerr, c146_stirlerr_other, c146_betaloge, c146_symmetric, c146_betaloge_other, c146_binomln, c146_whole_numbers, c146_zero, c146_log_gamma_exists, c147_given_kept, c147_bigger, c147_deviation, c147_deviations, c147_deadweight, c147_deadweight_refuted, c147_first_letters, c147_refused, c148_expon, c148_weibull, c148_burr, c148_exponweib, c148_genpareto, c148_gumbel, c148_genextreme, c148_rayleigh, c148_truncrayleigh, c148_expon_exceeds, c148_weibull_exceeds, c148_burr_exceeds, c148_exponweib_exceeds, c148_genpareto_exceeds, c148_gumbel_exceeds, c148_genextreme_exceeds, c148_rayleigh_exceeds, c148_truncrayleigh_exceeds, c148_burr_nan, c148_burr_refuted, c148_exponweib_nan, c148_exponweib_refuted, c148_genpareto_location_refuted, c148_gumbel_location_refuted, c148_genextreme_location_refuted, c148_genexpon_refuted, c148_rayleigh_scale_refuted, c148_truncrayleigh_refuted, c148_names, c148_not_implemented, c150_pvalue, c150_pvalue_order, c150_pvalue_default, c150_grid, c150_density, c150_constant, c152_independent, c152_equal, c152_opposite, c152_invalid, c152_symmetric, c152_marginals, c152_dependence, c152_median, c152_quadrature, c152_rule_6, c152_rule_12, c152_rule_20, c152_arrays, c152_arrays_refuted, c152_rectangle, c152_own, c152_strip_refuted, c152_maxima, c152_density, c153_integral, c153_additive, c153_reversed_refuted, c153_columns, c153_confidence, c153_cdf, c153_cdf_monotone, c153_transformed, c153_cumulative, c153_cumulative_refuted, c153_limits, c153_limits_refuted, c158_bases, c158_weights, c158_levin, c158_linear_rule, c158_exact, c158_fourier, c158_estimate, c158_reversed, c158_same_limits, c158_few_levels, c158_maxiter_refuted, c158_half_line, c158_half_line_down, c158_whole_line, c158_adaptive, c161_entries, c161_one_cycle, c161_no_range, c161_no_cycles, c161_sum, c161_order_of_cycles, c161_whole_powers, c161_turned, c161_moved, c161_enlarged, c161_larger, c161_pairs, c162_deep_water_limit, c162_mean_level_limit.

## 6. Findings: properties the code does not have

Each line names the theorem and says what is false of the code.

* `c06_initial_plateau_refuted`: finding: after an initial flat piece followed by a fall the first two turning points have the same value
* `c08_kind_all_refuted`: finding: for the documented kind 'all' ('du') with an even number of crossings the last reported index is not the extreme of its stretch
* `c10_last_leg_refuted`: finding: with method 0 ("removes cycles with range < h") a last leg of range exactly h is removed
* `c10_constant_refuted`: finding: rfcfilter(x, h=0, method=1) of a constant signal repeats a sample, and for a single sample writes behind the index buffer
* `c11_idempotent_refuted`: finding: without the condition on the last leg method 0 is not idempotent
* `c13_out_of_bounds_refuted`: refuted: every even-length sequence makes the routine read one word behind its input ...
* `c13_two_points_refuted`: finding: two turning points make findrfc raise IndexError
* `c15_repeated_values_refuted`: finding: when two neighbouring points are equal a whole cycle can disappear
* `c16_repeated_values_refuted`: finding: repeated values leave all-zero rows in the result
* `c18_filtered_too_short_refuted`: turning points that the rainflow filter reduces to nothing make cycle_pairs raise IndexError
* `c25_nearest_level_refuted`: level number k of linspace(a, b, n) is a + k (b-a)/(n-1): a cycle between the levels number k and l is not counted at [k, l] but at [k+1, l+1]
* `c25_position_independent_refuted`: a single max-to-min cycle is projected as if it were min-to-max: the same cycle in second position goes elsewhere
* `c26_names_refuted`: the documented name 'u' is rejected for every input, and the other names count what the name before them promises
* `c26_negative_extremes_refuted`: if all maxima are negative and two extremes are equal, a level 0 that no cycle has appears
* `c27_first_crossing_down_refuted`: if the first crossing is downwards, 'd2u' measures from up-crossings to down-crossings and the first wave is dropped
* `c27_extreme_periods_refuted`: minimum-to-minimum "periods" are differences of sample values: they can be negative, and scaling the signal scales them
* `c23_fr2nt_refuted`: fr2nt raises for every input
* `c23_nt2fr_refuted`: nt2fr is not the mixed difference of the cycle count matrix at the border
* `c78_diagonal_zero_refuted`: documented: numsubzero=0 means that only the diagonal is zero
* `c24_roundtrip_refuted`: the missing comma: three documented transforms do not come back, the last one raises
* `c24_id8_refuted`: plotflag 80 selects the transform 10log10(f) in one function and raises IndexError in the other
* `c30_integer_coefficients_refuted`: false for a list of integer coefficients: the intermediate results are truncated
* `c35_integer_fill_refuted`: with an integer fill value the results inside the interval are truncated
* `c37_chebder_refuted`: the derivative series of a Chebyshev series of degree one has twice the slope
* `c37_short_refuted`: chebder raises IndexError for series of one or two coefficients
* `c38_chebint_refuted`: ---- C38 --------------------------------------------------------------------------
* `c80_trailing_zero_refuted`: Cheb1d([1, 0]) is the function x, the object evaluates to 1
* `c80_arithmetic_refuted`: negation, sum, difference, integration and differentiation of Cheb1d objects raise for every operand
* `c41_left_closed_refuted`: documented: piece i holds for x_i <= x < x_(i+1). The value at a break is the one of the piece to its left.
* `c41_integer_points_refuted`: evaluation at an array of integers truncates the values
* `c41_constant_derivative_refuted`: the derivative of a piecewise constant cannot be evaluated between the breaks
* `c81_piecewise_linear_refuted`: a piecewise linear (or constant) function is not extrapolated at all
* `c81_derivative_refuted`: the derivative of the extrapolated function is 0 one unit beyond the last break
* `c43_two_points_refuted`: two data points pass the check of the code ("There must be >=2 data points") but raise
* `c43_variances_not_sorted_refuted`: x in decreasing order: x and y are put in order but the variances are not, so variance and data point no longer belong together
* `c45_decreasing_refuted`: On the first and the last segment this fails for decreasing data (the end slopes get the wrong sign, even for points on a straight line) and for a flat first segment; two points are refused
* `c45_flat_end_refuted`: Steffen slopes overshoot after a flat first segment
* `c45_two_points_refuted`: Steffen slopes of two points raise IndexError
* `c82_two_points_refuted`: with two points, which always are on a line, 'parabola' and 'stineman' return other slopes
* `c83_wrong_sign_refuted`: both conditions are needed: monotone = True does not give monotone interpolants of increasing data
* `c83_neighbours_refuted`: secant slopes are not monotone when neighbouring slopes differ too much
* `c84_parabola_increasing_refuted`: ... but not an increasing curve for increasing data, and two points do not give a straight line
* `c84_two_points_refuted`: Stineman interpolation of two points is not the straight line
* `c67_lazywhere_integer_fill_refuted`: the result takes the type of the fill value: with an integer fill value the values of f lose their fractions (numbers counted in halves: f returns 3/2 and the result holds 1)
* `c67_lazyselect_first_refuted`: so it does not mimic np.select, which takes the first
* `c70_window_mean_refuted`: C70 fails in general: inner values are not the mean of the 2L+1 surrounding samples; here a large first sample stays in the average although all surrounding samples are zero
* `c70_integer_refuted`: C70 fails for integer input too: the result has the type of the input, so averages are truncated
* `c71_single_outlier_refuted`: C71 fails for a single suspicious sample: it is in both lists
* `c71_missing_refuted`: C71 fails for missing samples: they are replaced by zero and may be classified as good
* `c71_first_missing_refuted`: and one at the very start is not even replaced, so that the jump after it goes unnoticed
* `c46_point_count_refuted`: with another number of points it does not even integrate a constant, and raises no error
* `c47_single_node_refuted`: for n = 1 the node is duplicated: the one-point Gauss-Legendre rule, node 0 and weight 2, comes out with twice the weight
* `c87_integer_integrand_refuted`: an integrand that returns an array of integers is truncated at the two ends: even a constant is integrated wrongly
* `c88_jacobi_documented_refuted`: whereas the documented weight is (x - a)^alpha (b - x)^beta
* `c88_integer_refuted`: and an integrand with integer values is integrated in integer arithmetic: 1 over [0, 1/2] gives 0 with error 0
* `c90_digits_refuted`: with more decimals the rule of an earlier call is used: alpha = 1.0000002 after alpha = 1.0000001
* `c91_nan_refuted`: but a NaN at one node is replaced by the previous estimate and reported as convergence with error 0: the integral of the Chebyshev polynomial of degree 8 against its weight is 0, gaussq returns - pi
* `c92_one_iteration_refuted`: one iteration, integer integrands and tolerance 0
* `c92_integer_refuted`: quadgr raises ValueError for integer valued integrands
* `c92_zero_tolerance_refuted`: quadgr with tolerance zero returns nan for polynomials it integrates exactly
* `c95_short_interval_refuted`: for intervals no longer than 1.5 it raises TypeError whatever the integrand: the size of the table is a float
* `c49_reset_refuted`: reset does not make the filter forget: after at least one call it changes nothing
* `c48_three_points_refuted`: three samples are returned as they are although the objective is not minimal there
* `c50_adaptive_refuted`: otherwise it can run past the end of its tables
* `c50_single_refuted`: hampel of a single sample without dx raises ValueError
* `c52_upper_edge_refuted`: although data on the edge pass the range check, an observation on the upper edge of the last dimension is an IndexError, always
* `c52_double_count_refuted`: one on the upper edge of another dimension can be counted twice
* `c53_shape_refuted`: with a shape that is too small accumsum returns a longer array where accum raises
* `c62_documented_refuted`: so the documented behaviour fails: two neighbouring samples returned with tmin = 1, and the largest sample lost
* `c63_one_event_refuted`: the shortest meaningful period, one event, does not survive the round trip: its probability 1 is refused
* `c63_types_refuted`: scalars and integer arrays, which the documentation allows, raise
* `c100_real_times_refuted`: for times that are not integers the index can be negative and the function raises
* `c102_ties_refuted`: with ties the last mean residual life can be the mean of nothing
* `c56_unknown_names_refuted`: the id of an unknown name is not accepted back
* `c57_empty_refuted`: empty input gives one array where the caller unpacks two; two constants of gravity only in deep water
* `c103_default_depth_refuted`: with the default water depth, infinity, all transfer functions below the surface are zero
* `c103_negative_refuted`: a negative Hw, whose sign should move to Gwt, raises
* `c103_ids_refuted`: integer sensor ids, documented as accepted, raise KeyError
* `c58_stale_refuted`: the parameters are not recomputed when the skewness changes
* `c59_mean_refuted`: the Ochi transform parameters do not solve the equation of the mean
* `c60_folds_refuted`: only the ends of a record are compared with the limit
* `c60_limit_refuted`: and the limit of the hardening model is not in the units of the record
* `c104_fourth_derivative_refuted`: the fourth derivative uses x1 x2 where the chain rule has x1 x3
* `c104_fine_table_refuted`: not so: a fine table, points outside the table, the points of an unevenly spaced table
* `c104_above_refuted`: tranproc above its table returns values of a stretched table, not the extrapolated line
* `c104_below_refuted`: tranproc below its table interpolates between the first and the last table value
* `c104_table_points_refuted`: tranproc of an uneven table does not return the table values at the table points
* `c64_biased_refuted`: the claim "the value at lag k is the biased estimate" fails for every length that is a power of two, already at lag 1
* `c64_normalized_constant_refuted`: a record without variation has no normalized covariance: every value is nan
* `c64_missing_values_refuted`: the variance of a series with missing values is not the variance of the values that are there
* `c64_missing_first_refuted`: a missing first value makes the whole covariance function nan
* `c65_unbiased_refuted`: C65: the claim "the unbiased flag returns an estimate" fails for every series of at least three values, with any window ...
* `c65_unbiased_named_refuted`: ... and, with a named window, for every series
* `c106_roundtrip_refuted`: for every other number of frequencies the spectrum that comes back has more frequencies
* `c76_tospecdata_refuted`: C76: the nugget is added to the object itself, again at every call
* `c109_eps4_refuted`: bandwidth('eps4') is not the documented quantity
* `c109_default_refuted`: bandwidth(0) is not the factor with number 0
* `c109_normalize_refuted`: the second moment after normalize is not one
* `c109_wavenumber_refuted`: normalize of a wavenumber spectrum does not give variance one
* `c110_peak_refuted`: the peak period is not 2 pi over the peak frequency for every spectrum
* `c110_covariance_refuted`: two entries of the covariance matrix of the characteristics are not where the table documents them
* `c74_degree_zero_refuted`: padua_fit fails for the single point of degree 0
* `c75_singletons_refuted`: the leading axes are not removed when every axis has length one
* `c114_parametric_range_refuted`: the ranges of M and gamma are not checked when N is in range
* `c114_seastate_refuted`: the documented use of jonswap_seastate: the spectrum carries at most a third of the energy of its Hm0
* `c115_torsethaugen_cutoff_refuted`: the normalized cutoff frequency is accepted and ignored
* `c115_ochihubble_energy_refuted`: the energy is that of Hm0 within half a percent, and not exactly for any of the eleven spectra
* `c115_mccormick_calm_refuted`: the McCormick spectrum of a calm sea raises TypeError
* `c117_wrapped_linspace_refuted`: the integral is not one for wrap_norm on the usual grid, where the first and the last angle are the same direction
* `c117_sech2_refuted`: nor for sech2 where the spread parameter is zero
* `c118_donelan_refuted`: the methods donelan and banner never return a spreading function
* `c118_method_names_refuted`: the name reported for the frequency independent method is not accepted
* `c119_gauss_radius_refuted`: the class of the Gaussian kernel with another radius than 4 does not integrate to one
* `c120_triweight_refuted`: the triweight kernel has a finite bending energy where the table says inf
* `c124_name_refuted`: the name a kernel reports does not select it again
* `c125_alias_refuted`: the constructor writes the default bandwidths into the array of the caller, truncated if it holds integers
* `c125_limits_single_refuted`: the default limits of one observation are nan
* `c126_mass_refuted`: a power transformation loses mass: the Gaussian estimate integrates to less than one
* `c126_single_refuted`: the transformed estimate at a single point raises ValueError
* `c126_integer_refuted`: integer data are truncated after the transformation
* `c127_low_refuted`: below the part of the mass at the maximum of the density a larger part gives a higher level
* `c127_others_refuted`: the level of a part depends on the other parts asked for
* `c128_midpoint_refuted`: method 2 does not put the k-th value at (k+0.5)/n
* `c129_negative_axes_refuted`: axes counted from the end are accepted and ignored
* `c129_documented_refuted`: with the factor sqrt(1/N) of the documentation type 3 would not be the inverse of type 2
* `c132_unknown_keyword_refuted`: a misspelt keyword goes unnoticed when the search is off
* `c132_none_refuted`: floc=None does not mean a free location, as it does for a shape parameter
* `c134_total_refuted`: the probabilities stored by pbinom include a machine epsilon each, so they add up to 1 + (n+1) eps
* `c134_sf_entry_refuted`: pbinom._sf raises IndexError at the end of the support; the public sf never asks for it
* `c137_constant_refuted`: the data are all equal: no bins
* `c138_caller_refuted`: an array of edges of the caller becomes a column, which the next call refuses
* `c139_scale_refuted`: For other lengths the documented series is not the signal.
* `c139_twice_refuted`: The caller's array of times becomes a row; the same call with it then gives nan.
* `c140_no_extremes_refuted`: A signal with at most one turning point, as one with a single peak, raises TypeError.
* `c140_one_row_refuted`: findpeaks of a matrix with one row raises IndexError
* `c141_between_levels_refuted`: The mean half way between two levels: division by zero.
* `c141_intensity_refuted`: Counts of at most 1, as of a normalised spectrum, have no default limits.
* `c142_start_refuted`: The second value does not have unit variance: sqrt(1 - r2^2) is used for sqrt(1 - r1^2).
* `c143_zero_end_refuted`: CovData1D.sim with an autocovariance function that ends with 0 (as every estimated one does) embeds it with rev(acf[2:]) instead of rev(acf[1:-1]): the simulated covariance at lag l is the average of those at l and l+1
* `c143_default_refuted`: CovData1D.sim with the default ns=None is a TypeError
* `c144_default_refuted`: CovData1D.simcond with its default method raises TypeError (sum of a bool, line 674) whenever the first missing value lies before the last window
* `c144_series_kept_refuted`: The series and the autocovariance function of the user are changed.
* `c144_marks_refuted`: simcond(x, i_unknown=...) writes NaN into the caller's series
* `c144_data_kept_refuted`: simcond(method='exact') of a long series multiplies data[0] of the covariance object by 1.00001 at every call
* `c145_falling_refuted`: ... falling ones are not.
* `c145_derivative_refuted`: The first derivative of 0, 1, 2 is given as -1.
* `c145_short_refuted`: Fewer values than half a window.
* `c145_last_point_refuted`: A last point on its own raises IndexError.
* `c147_deadweight_refuted`: getshipchar(max_deadweight=...) keeps a standard deviation of 10 percent for the value that was given and adds a misspelt key max_deadweigthSTD
* `c148_burr_refuted`: the profile links of burr for c, location and scale always give nan (log of a negative number)
* `c148_exponweib_refuted`: the profile links of exponweib for c, location and scale use -log(cdf) for the cdf; they are nan when the cdf is at most 1/e
* `c148_genpareto_location_refuted`: the location link of genpareto is never right for c != 0: expm1(c logsf) stands for -expm1(-c logsf)
* `c148_gumbel_location_refuted`: the location link of gumbel_r raises IndexError: the test i == 1 is written twice
* `c148_genextreme_location_refuted`: the location link of genextreme raises IndexError for c = 0 and is never right otherwise
* `c148_genexpon_refuted`: both links of genexpon are wrong for all arguments: a is given as -a z, b too large
* `c148_rayleigh_scale_refuted`: the scale link of rayleigh lacks parentheses around x - loc
* `c148_truncrayleigh_refuted`: the links of truncrayleigh for c and scale are wrong (factor 2; missing parentheses), and the table spells the name trunclayleigh, so that it is not found
* `c149_points_refuted`: a profile with n=4 is computed at five points, although n is documented as the maximal number
* `c149_first_free_refuted`: when some parameters are fixed the profiled parameter is by default the last free one; the documentation says the first
* `c149_valley_refuted`: for a profile with a valley get_bounds returns without a warning the interval where the profile is below the level
* `c151_myt_refuted`: SpecData2D.moment computes myt with Sc instead of Ss: for waves in the direction pi/2 it is 0
* `c151_k2d_refuted`: A documented type that cannot be used.
* `c151_tuple_refuted`: SpecData2D.rotate raises TypeError for the spectra made by tospecdata2d, whose args is a tuple, and has changed phi before that
* `c151_axis_refuted`: SpecData2D.rotate takes args[0] for the directions, which elsewhere are args[1]: it shifts the frequencies
* `c151_angle_refuted`: rotate of directions that do not start at -pi adds their offset to phi instead of subtracting it
* `c152_arrays_refuted`: `cdfnorm2d` of arrays: line 902 negates and divides the entries at positions *within the subset* of correlations with 0.925 <= |r|, not those entries (`bvn[k3]` instead of `bvn[k13]`).  For r = (0, 0.95) and limits 0 the first result is -1/(8 pi) instead of 1/4.
* `c152_strip_refuted`: `prbnorm2d` returns 1 for every strip, that is when one coordinate is unbounded on both sides: P(-40 < X < 40, 0 < Y < 1) is given as 1.
* `c153_reversed_refuted`: `PlotData.integrate(b, a)` with b > a takes no point between the limits: the result is one trapezium, not minus the integral.
* `c153_cumulative_refuted`: `Plotter_1d` with a plot flag for a cumulative transformation (tens digit 2, 3, 6 or 7) always fails: `cumtrapz` gives one value less than there are abscissas.
* `c153_limits_refuted`: `set_axis` tests `trans_flag == 5` outside and `trans_flag == 8` inside, so the branch for decibels cannot be reached; for log(1-f), whose maximum is negative, the lower limit of the axis lies above the upper one.
* `c153_zlab_refuted`: `AxisLabels.labelfig` writes zlab with `set_ylabel`: the y label is lost and the z label never set.
* `c153_title_refuted`: `AxisLabels.labelfig` on an axis without title gives a newline followed by the title; a second call gives the title without it.
* `c154_few_axes_refuted`: `chebvalnd` with fewer axes in c than variables: the docstring promises ones appended to the shape, but the vector of values at the points is used as coefficients of a new series in the next variable.
* `c154_fit_refuted`: `chebfitnd`: `lhs, rhs, scl = _init(...)` unpacks (lhs, scl, rhs), so the data and the scale are exchanged.  Unless there are as many points as coefficients it raises, otherwise the result does not depend on the data (constant fit to the value 2: coefficient 1).
* `c154_three_refuted`: `chebfit_dct` of a function of three or more variables returns the coefficients with axes in the order 1, 3, ..., n, 2, because meshgrid exchanges the first two axes and every axis but the last is rolled to the front.
* `c155_unchanged_refuted`: What the documentation promises besides.
* `c155_nmax_refuted`: `SpecData1D.resample(dt, Nmax=8)` can return 9 and more frequencies: the last check on spacing ignores Nmax, and nfft starts above it for long spectra.
* `c155_failure_refuted`: `SpecData1D.resample(method=...)` with an unknown method raises after `args` has been replaced: the spectrum is left with more frequencies than values.
* `c156_order_refuted`: What fails.
* `c156_border_refuted`: `sgolay2d` pads with `band - abs(...)` above and to the left and `band + abs(...)` below and to the right: the plane z = -i is smoothed to -2/3 instead of 0 in its first row (window_size=3, order=1).
* `c157_zero_refuted`: What fails.
* `c157_poly1d_refuted`: `padefit` takes `len(c)`, which is the order of a poly1d and the number of coefficients of an array: with an odd number of coefficients the default denominators differ by one degree.
* `c157_longer_refuted`: `padefitlsq` is documented to accept vectors with more than 8(m+k+1) values; every such call raises ValueError.
* `c158_maxiter_refuted`: `QuadOsc(..., maxiter=1)` raises UnboundLocalError: `q_val`, `err` and `converged` are only set in the loop over the bisections.
* `c159_sign_refuted`: `num2pistr(-25*pi)` is `-25\pi` but `num2pistr(25*pi)` is `78.5`: the numerator is compared with its limit without its absolute value.
* `c76_edf_refuted`: `edf(x)` sorts the array of the caller in place (`atleast_1d(x).sort()`).
* `c76_smoothn_refuted`: `smoothn(y)` replaces nan and inf in the array of the caller by 0.
* `c76_simcond_refuted`: `simcond(x, i_unknown=...)` writes nan into the array of the caller.
* `c76_simcond_object_refuted`: `simcond(x, method='exact')` with few covariances multiplies the first covariance of the object itself by 1.00001, so repeated calls make it grow.
* `c76_mctp2tc_refuted`: `mctp2tc(f_Mm, ...)` normalises the rows of the matrix of the caller; a second call with the same matrix and without `f_mM` starts from another matrix.
* `c161_ends_refuted`: get_minima_and_maxima keeps only the cycles with args <= data as soon as there is one; cycles stored the other way round are dropped without a message.
* `c162_all_frequencies_refuted`: disufq with even n and nmax = n/2 + 1 (as in tests/test_misc.py, n = 32 and nmax = 17) writes the doubled last frequency to position n*m, behind the end of rvec and ivec; neither the numba nor the C loop checks the position.
