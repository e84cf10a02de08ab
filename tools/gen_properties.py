#!/usr/bin/env python3
"""Writes /verif/properties.jsonl.  Edit the list here, then run it."""
import json, os
S = "src/sparse_ir/"
P = []
def p(title, statement, quantifier, why, anchors):
    P.append(dict(id="C%02d" % (len(P) + 1), title=title, statement=statement,
                  quantifier=quantifier, why_tests_cant=why,
                  anchors=[S + a for a in anchors]))

# ---- input validation and call plumbing --------------------------------------
p("Reduced Matsubara frequencies are validated exactly",
  "Evaluating a Fourier-transformed basis function (uhat, augmentation .hat) on an array of frequencies succeeds iff every element is an integer value representable as int64 and, when a statistics is fixed, has the matching parity (odd for fermions, even for bosons, negatives included); otherwise ValueError. The accepted values are used unchanged and in order.",
  "all integer or float arrays (NaN, infinities, fractional values, negative and huge values included), all parities",
  "The accepted set is infinite and the corner cases (negative parity with &, truncation of floats, out-of-range casts) form an unbounded family.",
  ["_util.py:check_reduced_matsubara", "poly.py:PiecewiseLegendreFT.__call__", "augment.py:TauConst.hat"])
p("Range validation accepts exactly the closed interval",
  "Evaluating u, v, or an augmentation at points x succeeds only if every point lies in the closed domain [xmin, xmax]; any point outside, and NaN or infinity, yields ValueError and no partial result; the points are passed on unchanged.",
  "all arrays of floats incl. NaN/inf, all finite bounds",
  "Universally quantified over reals and over array contents; NaN must be rejected by comparison semantics, not by an explicit check.",
  ["_util.py:check_range", "poly.py:PiecewiseLegendrePoly._split"])
p("A supplied SVD triple is accepted iff its shapes chain",
  "Constructing a decomposed matrix from a user-supplied SVD succeeds iff u is m x k, s has k entries and vH is k x n with (m, n) the matrix shape; otherwise ValueError.",
  "all shapes of u, s, vH and of the matrix",
  "Shape space is infinite.",
  ["_util.py:check_svd_result", "sampling.py:DecomposedMatrix.__init__"])
p("Vectorised evaluation is element-wise for arrays of any shape",
  "uhat(n) (and DLR u/uhat) evaluated on an array n of any number of dimensions has shape (basis size,) + n.shape, and its entry at [l, idx] equals entry l of the evaluation on the 1-D array holding just n[idx]; the asymptotic model of uhat gives shape n.shape + (basis size,) with the same values element by element.",
  "all array ranks and shapes, all index tuples",
  "Ranks and shapes are unbounded; row-major ravel/reshape arithmetic must invert for every shape.",
  ["_util.py:RavelArgumentDecorator.__call__", "poly.py:PiecewiseLegendreFT.__call__", "dlr.py:MatsubaraPoles.__call__"])
p("Which object a shape-decorated method evaluates, for every history of accesses and calls",
  "A call through an attribute access obj.method(x) that is not interleaved with another access evaluates obj. In general a call evaluates the object of the most recent attribute access to that method anywhere in the program (any thread, any object of the class); hence two threads evaluating uhat of different bases, or a stored bound method, can evaluate the wrong object.",
  "all finite histories of attribute accesses and calls, all interleavings of any number of threads",
  "Depends on the global history of accesses and on thread interleavings.",
  ["_util.py:RavelArgumentDecorator.__get__", "_util.py:RavelArgumentDecorator.__call__"])
# ---- root finding -------------------------------------------------------------
p("Discrete sign changes: sound, complete, ordered, terminating",
  "uhat[l].sign_changes on a strictly increasing integer grid terminates; it returns, strictly increasing, exactly one frequency per grid interval whose end values are nonzero with different sign bits, located at an index r in that interval where the sign bit differs between r and r+1, plus every grid point where the function is exactly zero, and nothing else.",
  "all functions on the integers (arbitrary sign patterns), all strictly increasing integer grids",
  "All functions and grids; termination and the vectorised work-list (brackets finishing at different times) cannot be exhausted by tests.",
  ["_roots.py:find_all", "_roots.py:_bisect_discr", "poly.py:PiecewiseLegendreFT.sign_changes"])
p("Continuous root search: sound and complete with respect to the grid, with a guaranteed error",
  "Root finding on an increasing grid returns, sorted, every grid point where the function vanishes and exactly one point per grid interval with a strict sign change; each of the latter lies in its interval and is within xeps = eps*max|grid| of a true root when the function is continuous.",
  "all functions, all increasing grids, all sign patterns",
  "Quantifies over all continuous functions and all grids.",
  ["_roots.py:find_all", "_roots.py:_bisect_cont"])
p("Continuous bisection terminates in IEEE double precision",
  "With every operation rounded to nearest double, the root search terminates for every function on every increasing grid of doubles whose largest magnitude is not tiny (eps*max is a normal number); for grids so small that eps*max underflows to zero it never terminates.",
  "all functions, all grids of doubles (subnormals included), no overflow",
  "Termination under rounding depends on all pairs of adjacent doubles; no test can enumerate them.",
  ["_roots.py:_bisect_cont", "_roots.py:find_all"])
p("Discrete extrema are local maxima of the magnitude strictly inside their bracket",
  "Each interior point returned by uhat[l].extrema lies strictly between grid points x[i] and x[i+2] of a secant sign change and is a local maximum of |f| with respect to both integer neighbours except possibly towards a bracket edge it touches; if |f| is unimodal on the bracket the point is its maximum. The outermost grid points are returned iff the magnitude decreases or the sign changes inwards.",
  "all functions on integers, all strictly increasing grids of length at least two",
  "All functions, all bracket sizes; bisection branches depend on every value.",
  ["_roots.py:discrete_extrema", "_roots.py:_bisect_discr_extremum"])
p("Extrema order: exact condition",
  "The list of extrema is strictly increasing whenever no two consecutive secants change sign; without that, overlapping brackets can return unordered points, in which case extrema(positive_only=False) raises ValueError.",
  "all functions on integers and grids",
  "Requires adversarial functions.",
  ["_roots.py:discrete_extrema", "poly.py:_symmetrize_matsubara"])
p("Symmetrised Matsubara points",
  "Extending non-negative points to both signs yields, for sorted non-negative input, a sorted list symmetric under negation with the same multiplicities, containing zero once iff the input starts with a zero, strictly increasing if the input is; unsorted or negative input raises ValueError; empty input stays empty.",
  "all integer lists",
  "All lists of all lengths.",
  ["poly.py:_symmetrize_matsubara"])
p("Default Matsubara sampling points: parity, order, symmetry, zero frequency, count warning",
  "default_matsubara_sampling_points ends on every input and returns integers of the statistics' parity, all non-negative when positive_only and otherwise symmetric under negation; they are strictly increasing if the basis has a spare function, or the statistics is bosonic, or the highest function has no two overlapping extremum brackets on the search grid (otherwise the fermionic fallback can return unordered points); with a spare function a result is always returned; when the basis has no spare function and the statistics is bosonic the zero frequency is always included; a warning is issued iff the number of points differs from the requested (parity-rounded, halved if positive_only) number.",
  "all basis functions (as functions on the integers), basis sizes, requested sizes, both statistics, both positive_only settings",
  "All functions and sizes.",
  ["basis.py:_default_matsubara_sampling_points", "poly.py:PiecewiseLegendreFT.extrema", "poly.py:PiecewiseLegendreFT.sign_changes"])
p("Fencing keeps the sampling points and their structure",
  "Fencing returns a strictly increasing superset of the given frequencies with the same parity, adds at most two (one if positive_only) points per threshold, and keeps non-negative input non-negative. Symmetric input stays symmetric under negation exactly when fewer than 20 or at least 40 points are given, or the shift is zero; between 20 and 39 points both added points are shifted in the same direction and the symmetry is lost.",
  "all frequency lists of any length",
  "All list lengths around and beyond both thresholds.",
  ["basis.py:_fence_matsubara_sampling"])
p("The default frequency grid is strictly increasing from 0 to 2^25",
  "The grid used by extrema and sign_changes by default consists of 369 strictly increasing integers starting with 0..64 and ending with 2^25, so every default search meets the preconditions of the root finders.",
  "the whole (finite) default grid; every default call",
  "Tests only exercise particular functions; that precondition must hold for every default call.",
  ["poly.py:PiecewiseLegendreFT._DEFAULT_GRID"])
# ---- quadrature ---------------------------------------------------------------
p("Quadrature rule transformations keep nodes, distances and weights consistent",
  "For every rule whose stored distances are x - a and b - x, reseat, scale, join and piecewise give rules with the same property on the new interval; nodes stay ordered and inside the interval; weights sum to scaled totals.",
  "all rules, all target intervals, all factors, any number of pieces",
  "All reals and any number of pieces (induction).",
  ["_gauss.py:Rule.reseat", "_gauss.py:Rule.scale", "_gauss.py:Rule.piecewise", "_gauss.py:Rule.join"])
p("Quadrature exactness survives reseating and piecewise composition",
  "If a rule integrates all polynomials up to degree d exactly on its interval, so does the reseated rule on the new interval, and the piecewise rule integrates every function that is a polynomial of degree at most d on each piece exactly over the whole interval.",
  "all rules, degrees, intervals, edge lists and piecewise polynomials",
  "Universally quantified over polynomials and partitions.",
  ["_gauss.py:Rule.reseat", "_gauss.py:Rule.piecewise", "_gauss.py:Rule.join"])
p("Join and piecewise reject gaps and unordered edges, and nothing else",
  "piecewise raises ValueError iff some consecutive edges are not strictly ascending; join raises ValueError iff consecutive rules do not abut; joining nothing gives an empty rule on [-1, 1].",
  "all edge lists and rule lists",
  "All lists.",
  ["_gauss.py:Rule.piecewise", "_gauss.py:Rule.join"])
p("Three-term recurrence evaluation returns value and derivative",
  "Evaluating the recurrence returns the n-th monic polynomial, its exact derivative, the (n-1)-th polynomial and its derivative, for every choice of recurrence coefficients and every point.",
  "all n >= 1, all coefficient sequences, all x",
  "All degrees and coefficients.",
  ["_gauss.py:_polyvalderiv"])
p("Gauss-Legendre weights and exactness",
  "The rule returned by the Gauss construction has weights summing to b - a; if its nodes are the n distinct zeros of the monic Legendre polynomial, it integrates every polynomial of degree at most 2n-1 over [-1, 1] exactly and its weights are positive. For every n >= 1 the polynomial has n distinct zeros in (-1, 1), and the rule with these nodes is the only n-point rule with that exactness.",
  "all n >= 1, all polynomials up to degree 2n-1",
  "All n and all polynomials.",
  ["_gauss.py:rule_from_recurrence", "_gauss.py:_legendre_recurrence"])
p("Newton refinement: an exact starting point makes the construction fail",
  "If the eigenvalue solver already returns nodes at which the polynomial vanishes exactly, every Newton step is zero, the convergence test never stops the loop, and the construction raises AttributeError from the malformed warning text; in particular legendre(1) always raises. It returns a rule iff some Newton step fails to halve. In exact arithmetic the Newton steps converge (each at least four times closer) from every start close enough to the zeros, so that legendre(n) then raises for every n: it returns only because of rounding.",
  "all n, all recurrences, all starting points",
  "The loop behaviour depends on the whole sequence of Newton steps.",
  ["_gauss.py:rule_from_recurrence"])
p("Kronrod constants form a nested symmetric rule exact to 1e-13",
  "The 31-point rule and its embedded 15-point rule have symmetric nodes and weights, positive weights, strictly increasing nodes inside (-1,1), nested at odd positions, and integrate every polynomial of degree at most 46 (resp. 28) with an error at most 1e-13 times the sum of its coefficients' magnitudes.",
  "all polynomials up to the stated degrees",
  "All polynomials; a typo in one literal must be excluded.",
  ["_gauss.py:kronrod_31_15", "_gauss.py:NestedRule"])
p("Collocation matrix inverts evaluation",
  "For an exact n-point Gauss-Legendre rule, the collocation matrix is the two-sided inverse of the matrix of Legendre polynomial values at the nodes: interpolating node values returns a polynomial taking those values.",
  "all n >= 1",
  "All n.",
  ["_gauss.py:legendre_collocation"])
# ---- piecewise polynomials ------------------------------------------------------
p("Segment lookup and domain of piecewise polynomials",
  "For strictly increasing knots, evaluation at any x in [xmin, xmax] uses a segment that contains x (the right one at interior knots, the last one at xmax) with local coordinate in [-1, 1]; outside it raises ValueError.",
  "all knot vectors, all x",
  "All reals and knot counts.",
  ["poly.py:PiecewiseLegendrePoly._split", "poly.py:PiecewiseLegendrePoly.__call__"])
p("The three evaluation routes agree",
  "poly(x)[l], poly[l](x) and poly.value(l, x) are equal for all l and x, raise in the same cases (ValueError for points outside the interval, else IndexError for indices out of range; negative indices count from the end), and slicing commutes with differentiation and with evaluation.",
  "all polynomials, l, x, slices",
  "All inputs.",
  ["poly.py:PiecewiseLegendrePoly.__call__", "poly.py:PiecewiseLegendrePoly.value", "poly.py:PiecewiseLegendrePoly.__getitem__"])
p("deriv(n) is the n-th derivative",
  "At every interior point of a segment, poly.deriv(n) equals the n-th derivative of poly; the stored parity is multiplied by (-1)^n, consistently with the parity of the derivative.",
  "all polynomials, orders n, segments, interior points",
  "All n, all coefficients, all points.",
  ["poly.py:PiecewiseLegendrePoly.deriv"])
p("roots(): range, symmetry, completeness; double count at the midpoint",
  "roots() of a single polynomial returns points of [xmin, xmax]; for even or odd polynomials the result is symmetric about the midpoint, contains the midpoint exactly once if odd, and contains one point per strict sign change of the refined half grid on each side. For an even polynomial vanishing exactly at the midpoint, the midpoint is returned twice.",
  "all piecewise polynomials of declared parity +1, -1 or 0, all refinements",
  "All polynomials.",
  ["poly.py:PiecewiseLegendrePoly.roots", "poly.py:_refine_grid"])
p("uhat is the Fourier transform of u",
  "For every reduced frequency n below the asymptotic threshold, uhat[l](n) equals the integral over [0, beta] of exp(i*pi*n*tau/beta) u[l](tau); for a bare PiecewiseLegendreFT it equals 1/sqrt(2) times the integral of exp(i*pi*n*(x+1)/2) p(x) over [-1, 1].",
  "all piecewise Legendre polynomials (any knots, order, coefficients), all integers n, all beta > 0",
  "All integers n and all coefficients.",
  ["poly.py:_compute_unl_inner", "poly.py:_phase_stable", "poly.py:_shift_xmid", "poly.py:_get_tnl", "poly.py:_imag_power", "basis.py:FiniteTempBasis.__init__"])
p("Conjugation symmetry and real/imaginary parity of uhat",
  "uhat(-n) is the complex conjugate of uhat(n); for polynomials of definite parity, uhat is purely real or purely imaginary at all frequencies of the statistics' parity, and that is the part inspected by extrema and sign_changes.",
  "all polynomials of definite parity, all frequencies",
  "All integers n and coefficients.",
  ["poly.py:PiecewiseLegendreFT._func_for_part", "poly.py:_get_tnl", "adapter.py:_get_unl_real"])
p("High-frequency model",
  "The asymptotic model evaluates sum_m M[m]/(i*pi*n/2)^(m+1) for n != 0 and 0 for n = 0; for a polynomial on a single segment whose parity is (-1)^l it equals the exact Fourier transform at every nonzero frequency; it replaces the exact transform exactly when |n| >= n_asymp; slicing commutes with it.",
  "all moments, frequencies, polynomials on one segment",
  "All n and coefficients.",
  ["poly.py:_PowerModel.giw", "poly.py:_power_moments", "poly.py:_derivs", "poly.py:PiecewiseLegendreFT.__call__"])
p("Fourier-transforming a derivative fails",
  "The derivative of a piecewise polynomial keeps the polynomial order of the original; constructing a PiecewiseLegendreFT from it and evaluating at a frequency raises ValueError whenever the original order exceeds one and the set of functions is non-empty, whereas it works for the original.",
  "all polynomials of order > 1, all orders of differentiation, all frequencies",
  "All orders and shapes.",
  ["poly.py:PiecewiseLegendrePoly.__init__", "poly.py:PiecewiseLegendrePoly.deriv", "poly.py:_compute_unl_inner"])
p("Overlap integration never loses or double counts an interval while refining",
  "At every refinement level the converged and pending intervals together partition the original integration domain; when overlap finishes without warning, its value is the sum of the embedded 15-point rule over a partition of the domain, and the error estimate the sum of the local differences; when it aborts with a warning the pending intervals contribute nothing. Every converged interval met the tolerance relative to a tiling of the whole domain; a result without warning for integrands that are polynomials of degree at most 29 between break points is the integral up to the precision of the tabulated rule; overlap returns for every integrand defined strictly between the break points, raises ValueError for break points outside the domain and TypeError for more than 2000 initial intervals; if the product with one polynomial of the set vanishes identically the result is zero for all of them, with a warning.",
  "all integrands, tolerances, knot sets, break points, refinement histories",
  "All refinement histories.",
  ["poly.py:_compute_overlap", "poly.py:PiecewiseLegendrePoly.overlap"])
p("Inner product of piecewise polynomials",
  "The integral of the product of two functions on common knots equals the sum over segments and orders of the products of coefficients times 2/(2k+1); hence a set is orthonormal iff its coefficient columns are orthonormal in that weight.",
  "all polynomials and pairs of indices",
  "All coefficients.",
  ["poly.py:PiecewiseLegendrePoly.__call__", "sve.py:SamplingSVE.postprocess"])
# ---- kernels ----------------------------------------------------------------------
p("Logistic kernel equals its formula and never overflows",
  "For all x, y in [-1,1] and Lambda > 0 the logistic kernel equals exp(-Lambda*y*(x+1)/2)/(1+exp(-Lambda*y)), lies in (0, 1], and every exponential it forms has a non-positive argument; outside the square ValueError.",
  "all Lambda > 0, x, y, with or without supplied distances x_plus, x_minus",
  "All reals.",
  ["kernel.py:LogisticKernel.__call__", "kernel.py:LogisticKernel._compute", "kernel.py:_compute_uv"])
p("Regularised Bose kernel: value, sign and removable singularity",
  "For Lambda*|y| >= 1e-200 the kernel equals y*exp(-Lambda*y*(x+1)/2)/(1-exp(-Lambda*y)), i.e. minus the expression in its documentation; at y = 0 it equals 1/Lambda; below the threshold it deviates from the formula by at most 1e-200/Lambda; it is positive.",
  "all Lambda > 0, x, y in [-1,1]",
  "All reals.",
  ["kernel.py:RegularizedBoseKernel._compute", "kernel.py:RegularizedBoseKernel.__call__"])
p("Kernels are centrosymmetric",
  "K(x, y) == K(-x, -y) for the logistic and the regularised Bose kernel everywhere on the square, as is_centrosymmetric claims.",
  "all Lambda > 0, x, y",
  "All reals.",
  ["kernel.py:LogisticKernel.is_centrosymmetric", "kernel.py:RegularizedBoseKernel.is_centrosymmetric"])
p("Symmetrised kernels equal K(x,y) +- K(x,-y) in every branch",
  "get_symmetrized(sign) evaluated with distances x_plus = x, x_minus = 1 - x equals K(x,y) + sign*K(x,-y) on [0,1]x[0,1], including the branches that substitute a hyperbolic closed form; omitting x_plus raises TypeError.",
  "all Lambda > 0, x, y in [0,1], both signs, both kernels",
  "All reals; branch boundaries.",
  ["kernel.py:ReducedKernel.__call__", "kernel.py:_LogisticKernelOdd.__call__", "kernel.py:_RegularizedBoseKernelOdd.__call__"])
p("Weight functions give the bosonic kernel; which statistics strings are accepted",
  "For the logistic kernel the bosonic weight times the kernel equals exp(-Lambda*y*(x+1)/2)/(1-exp(-Lambda*y)) for y != 0; fermionic weight is one. A statistics string is accepted iff it is a substring of 'FB' (so '' and 'FB' are accepted and treated as bosonic); the regularised Bose kernel accepts exactly 'B'.",
  "all Lambda > 0, x, y != 0, all strings",
  "All reals, all strings.",
  ["kernel.py:LogisticKernel.weight_func", "kernel.py:AbstractKernel.weight_func", "kernel.py:RegularizedBoseKernel.weight_func"])
p("Discretisation segments are valid for every cutoff",
  "For every Lambda > 0 the hinted segments of both kernels on both axes are strictly increasing, start at -1, end at 1, contain 0 in the middle and are antisymmetric, so quadrature construction never rejects them; symmetrising yields exactly the non-negative half, and mirroring that half restores the full list.",
  "all Lambda > 0",
  "All reals Lambda (and hence any number of segments).",
  ["kernel.py:_SVEHintsLogistic", "kernel.py:_SVEHintsRegularizedBose", "kernel.py:_SVEHintsReduced", "kernel.py:_symm_segments"])
# ---- SVE ----------------------------------------------------------------------------
p("Singular value truncation",
  "Truncation with tolerance rtol and limit lmax keeps, over all blocks together, at most lmax singular values; for blocks sorted in non-increasing order it keeps exactly those strictly larger than a common cutoff, i.e. no discarded value exceeds a kept one and equal values are kept or dropped together; invalid rtol or lmax raises ValueError.",
  "any number of blocks of any sizes, all rtol, all lmax",
  "All lists, ties included.",
  ["sve.py:_truncate"])
p("Partial SVE",
  "SVEResult.part(eps, max_size) returns a common prefix of u, s, v whose length is the number of singular values >= eps*s[0], limited by max_size when 0 <= max_size; for non-increasing s these are exactly the values above the threshold. A negative max_size drops that many values from the end of the full list, even those already cut by eps.",
  "all s, eps, max_size",
  "All lists.",
  ["sve.py:SVEResult.part"])
p("Gauge fixing",
  "After canonicalisation every left function with nonzero value at x=1 is positive there, and its product u_l(x)*v_l(y) is unchanged; a left function that vanishes at x=1 is divided by zero.",
  "all function pairs, all x, y",
  "All data.",
  ["sve.py:_canonicalize"])
p("Merging even and odd blocks reconstructs the full kernel",
  "Given singular expansions of the even and odd reduced kernels on [0,1]^2, the merged result has singular values in non-increasing order, functions with u_l(-x) = sign_l*u_l(x), the sign stored as parity, orthonormal on [-1,1], and, if the reduced expansions are within e of the even and odd parts of a centrosymmetric K on [0,1]^2 (e = 0: exact), sum_l s_l u_l(x) v_l(y) is within e of K(x,y) at all points of [-1,1]^2 off the reflected interior knots, and on all of [-1,1]^2 if K is continuous in each variable; for discontinuous K it can fail at a reflected knot.",
  "all reduced data, any number of functions, all x, y",
  "All data.",
  ["sve.py:CentrosymmSVE.postprocess"])
p("Sampling SVE reproduces the kernel at the quadrature nodes with orthonormal functions",
  "With an exact Gauss rule and an exact thin SVD, the functions built by SamplingSVE satisfy sum_l s_l u_l(x_i) v_l(y_j) = K(x_i, y_j) at all quadrature nodes and are orthonormal on their intervals.",
  "all kernels (as functions), all segmentations, all orders",
  "All kernels and sizes.",
  ["sve.py:SamplingSVE.matrices", "sve.py:SamplingSVE.postprocess"])
p("Accuracy policy",
  "Working precision, safe epsilon and SVD strategy follow a fixed total decision table on (requested eps, working dtype, strategy, extended precision available): an explicit strategy is never overridden and never warns; a warning is issued iff no strategy was given and eps is below the safe value; in that case the accurate strategy is chosen.",
  "all eps (or None), dtypes, strategies, with and without the extended precision package",
  "All real eps.",
  ["sve.py:_safe_eps", "svd.py:compute"])
# ---- basis ---------------------------------------------------------------------------
p("Rescaling to physical variables preserves the expansion and orthonormality",
  "For every beta, wmax > 0: u_l(tau) = sqrt(2/beta) u_l^x(2 tau/beta - 1), v_l(w) = v_l^y(w/wmax)/sqrt(wmax), orthonormality carries over to [0,beta] and [-wmax,wmax], and sum_l s_l u_l(tau) v_l(w) equals wmax^(-ypower) times the unscaled expansion. For the logistic kernel (ypower 0) this is the kernel in physical variables; for ypower 1 it is wmax^(-2) times omega exp(-tau omega)/(1 - exp(-beta omega)).",
  "all SVE results, beta > 0, wmax > 0, tau, omega",
  "All reals.",
  ["basis.py:FiniteTempBasis.__init__"])
p("Basis accuracy bounds every discarded significance",
  "accuracy is between 0 and 1; when truncated it equals the first discarded singular value relative to the first and bounds all discarded ones; otherwise it equals the last significance; significance starts at 1 and is non-increasing.",
  "all positive non-increasing singular value lists, all truncations",
  "All lists.",
  ["basis.py:FiniteTempBasis.__init__", "basis.py:FiniteTempBasis.significance", "basis.py:FiniteTempBasis.accuracy"])
p("Truncating a basis: size of basis[:n]",
  "basis[:n] with 0 < n keeps the first min(n, N) functions where N is the number of singular values above the accuracy of the stored SVE (not the current size): so basis[:n] has size n for n <= min(basis.size, N), but slicing an eps-truncated basis with a larger bound (or no bound) enlarges it; non-prefix slices and integers raise ValueError.",
  "all singular values, eps choices and n, sequences of slicings",
  "All lists and histories of slicing.",
  ["basis.py:FiniteTempBasis.__getitem__", "basis.py:_slice_to_size", "sve.py:SVEResult.part"])
p("rescale keeps Lambda and keeps the size exactly when the basis eps is not below the SVE accuracy",
  "rescale(b) keeps beta*wmax = Lambda, the kernel and the SVE; the new size is min(size, N) with N the number of singular values above the stored SVE accuracy, hence equal to the old size iff size <= N; a basis built with eps below that accuracy shrinks.",
  "all bases and new temperatures, all sequences of rescalings",
  "All lists and histories.",
  ["basis.py:FiniteTempBasis.rescale", "sve.py:SVEResult.part"])
p("rescale never trips the Lambda consistency check in double precision",
  "In IEEE double arithmetic, Lambda/new_beta*new_beta passes the relative tolerance 4e-16 used to compare the kernel's Lambda with the basis' for every new_beta, barring overflow and underflow.",
  "all doubles Lambda, new_beta in the normal range",
  "2^128 pairs of doubles.",
  ["basis.py:FiniteTempBasis.rescale", "basis.py:_get_kernel"])
p("Default tau and omega sampling points lie strictly inside and are increasing",
  "The default sampling points in tau (omega) are strictly increasing and lie inside [0, beta] ([-wmax, wmax]); in the extrapolating branch they are strictly inside the open interval whenever the maxima are; a warning is issued iff their number differs from the requested one.",
  "all bases (root lists), beta, wmax",
  "All reals and lists.",
  ["basis.py:_default_sampling_points", "basis.py:FiniteTempBasis.default_tau_sampling_points", "basis.py:FiniteTempBasis.default_omega_sampling_points"])
p("Constructor validation of a finite-temperature basis",
  "Construction raises ValueError for beta not positive, wmax negative, a statistics string that is not a substring of 'BF', or a kernel whose Lambda deviates from beta*wmax; '' and 'BF' pass the string test and fail later with KeyError; a supplied SVE computed for a different Lambda is accepted.",
  "all statistics strings, beta, wmax, kernels, SVE results",
  "All strings and reals.",
  ["basis.py:FiniteTempBasis.__init__", "basis.py:_get_kernel"])
p("Fermionic and bosonic bases of a pair share SVE, functions and tau sampling",
  "finite_temp_bases and FiniteTempBasisSet give two bases with the same u, s, v, sizes, accuracies and default tau points, differing only in statistics and frequency parity; both use one SVE.",
  "all beta, wmax, eps, SVE results",
  "All inputs.",
  ["basis.py:finite_temp_bases", "basis_set.py:FiniteTempBasisSet"])
# ---- sampling ---------------------------------------------------------------------------
p("Evaluation along any axis of an array of any rank",
  "evaluate/fit with axis=k applied to an array of any rank applies the matrix along exactly that axis (negative axes count from the end) and leaves all other axes in place; a length mismatch or an invalid axis raises.",
  "all ranks, shapes, axes",
  "Unbounded ranks and shapes.",
  ["sampling.py:_matop_along_axis", "sampling.py:DecomposedMatrix.matmul", "sampling.py:DecomposedMatrix.lstsq"])
p("Default axis",
  "Omitting axis equals axis=0 for vectors and equals axis = ndim-2 for rank >= 2; it coincides with the documented last axis only for vectors.",
  "all ranks and shapes",
  "Unbounded ranks.",
  ["sampling.py:_matop_along_axis", "sampling.py:AbstractSampling.evaluate"])
p("fit is the least-squares solution",
  "Given a valid SVD of the sampling matrix, fit returns the coefficient vector minimising the 2-norm of the residual over all coefficient vectors, and among the minimisers the one of least norm; exactly zero singular values are dropped; if the matrix has full column rank, fit(evaluate(g)) == g for all g and fit recovers any function in the span.",
  "all matrices with an SVD, all data vectors, real or complex",
  "All matrices and vectors.",
  ["sampling.py:DecomposedMatrix.__init__", "sampling.py:DecomposedMatrix._lstsq"])
p("positive_only fit is the least-squares solution over real coefficients",
  "With positive_only, fit returns the real coefficient vector minimising the complex residual norm over all real vectors, provided the matrix row of zero frequency is real when zero is sampled; for real coefficients fit(evaluate(g)) == g whenever the stacked real matrix has full column rank.",
  "all complex matrices, all data, with or without zero frequency",
  "All matrices and vectors.",
  ["sampling.py:_split_complex", "sampling.py:SplitDecomposedMatrix"])
p("Explicit sampling points: order of the result",
  "TauSampling.evaluate(al, points=p)[n] is the value at p[n]. MatsubaraSampling.evaluate(al, points=p)[n] is the value at the n-th smallest element of p, so it is the value at p[n] for every basis iff p is sorted; correspondingly fit(points=p) reads the data in sorted order.",
  "all point lists, all bases, all coefficients",
  "All lists.",
  ["sampling.py:MatsubaraSampling.__init__", "sampling.py:AbstractSampling.evaluate", "sampling.py:TauSampling._for_sampling_points"])
p("Conditioning warning",
  "fit issues a conditioning warning iff the basis claims to be well conditioned and the ratio of the largest to the smallest nonzero singular value is not at most 1e8; an augmented basis claims this iff its only augmentation is the Matsubara constant and the inner basis does; a DLR never does.",
  "all singular value lists, bases, augmentation lists",
  "All lists.",
  ["sampling.py:AbstractSampling.fit", "augment.py:AugmentedBasis.is_well_conditioned", "dlr.py:DiscreteLehmannRepresentation.is_well_conditioned"])
# ---- augmentation -------------------------------------------------------------------------
p("Augmentations: hat is the Fourier transform, functions are normalised",
  "For even n, TauConst.hat(n) and TauLinear.hat(n) equal the integral over [0, beta] of exp(i*pi*n*tau/beta) times the function, for arrays n and a numpy that has np.complex (without it TauConst.hat raises AttributeError, and TauLinear.hat of a zero-dimensional n raises TypeError); both functions have unit norm and are orthogonal; odd n raises ValueError.",
  "all beta > 0, all integers n",
  "All integers and reals.",
  ["augment.py:TauConst", "augment.py:TauLinear"])
p("Augmentation derivatives",
  "deriv(n) of TauConst and TauLinear is, on arrays of floats, the n-th derivative of the function for every n; on integer arrays the first derivative of TauLinear is truncated to an integer.",
  "all n, tau, beta",
  "All n.",
  ["augment.py:TauConst.deriv", "augment.py:TauLinear.deriv"])
p("Augmented basis layout",
  "An augmented basis with k augmentations has size k + inner size; u(x)[l], uhat(n)[l] and u[l](x) are the l-th augmentation for l < k and the (l-k)-th inner function otherwise (a negative l counts from the end of the augmentations); truncation basis[:n] keeps all augmentations and the first n-k inner functions, and raises if n <= k.",
  "all bases, augmentation lists, l, n",
  "All lists.",
  ["augment.py:_AugmentedFunction", "augment.py:AugmentedBasis.__getitem__", "augment.py:AugmentedBasis.size"])
p("Fermionic bases reject bosonic augmentations",
  "Constructing an augmented basis from classes fails with ValueError iff the list contains TauConst or TauLinear and the inner statistics is not 'B'; instances are taken as given, so an already constructed TauConst is accepted by a fermionic basis, and evaluating the resulting frequency functions at an odd frequency then raises.",
  "all augmentation lists and statistics",
  "All lists.",
  ["augment.py:_augmentation_factory", "augment.py:_check_bosonic_statistics"])
p("Broken accessors of augmented bases",
  "For every augmented basis: reading statistics raises TypeError; the upper end of the domain of u reads as the lower end; differentiating u raises for every number of augmentations.",
  "all augmented bases",
  "Holds for all instances, not for one.",
  ["augment.py:AugmentedBasis.statistics", "augment.py:AugmentedTauFunction.xmax", "augment.py:AugmentedTauFunction.deriv"])
# ---- DLR -------------------------------------------------------------------------------------
p("DLR time functions have the closed form of a pole",
  "For poles not all zero, the DLR function of pole w at tau in [0,beta] equals -exp(-tau*w)/(1+exp(-beta*w)), independently of the other poles; outside [0,beta] RuntimeError. If all poles are zero evaluation is undefined (division by zero).",
  "all pole lists, beta > 0, tau",
  "All reals.",
  ["dlr.py:TauPoles.__call__"])
p("DLR frequency functions are the Fourier transforms of the time functions",
  "For every pole w and every n of the statistics' parity (excluding w = 0 with n = 0), the DLR frequency function equals the integral over [0,beta] of exp(i*pi*n*tau/beta) times the time function: 1/(iv - w) for fermions, tanh(beta*w/2)/(iv - w) for bosons.",
  "all poles, beta > 0, n",
  "All integers and reals.",
  ["dlr.py:MatsubaraPoles.__call__", "dlr.py:TauPoles.__call__"])
p("DLR to IR transfer preserves the function",
  "to_IR(g) gives IR coefficients whose time function differs from the DLR expansion by at most the kernel truncation error times sum |g_p|, and equals it when the singular expansion is exact; from_IR(to_IR(g)) == g when the transfer matrix has full column rank.",
  "all pole sets, coefficients, tau",
  "All reals.",
  ["dlr.py:DiscreteLehmannRepresentation.__init__", "dlr.py:DiscreteLehmannRepresentation.to_IR", "dlr.py:DiscreteLehmannRepresentation.from_IR"])
# ---- adapter ---------------------------------------------------------------------------------
p("Adapter: sampling indices pick one maximum per sign segment",
  "The legacy extremum search splits a value list at strict sign changes and returns, strictly increasing, one index per segment at which the magnitude is maximal within the segment (the first such).",
  "all non-empty value lists",
  "All lists.",
  ["adapter.py:_sampling_points"])
p("Adapter: full frequency interval",
  "For fermions the result is closed under n -> -n-1, for bosons under n -> -n and contains 0 exactly once; both are strictly increasing for strictly increasing non-negative input and contain the input. (An empty list with bosonic statistics raises IndexError.)",
  "all strictly increasing non-negative index lists",
  "All lists.",
  ["adapter.py:_full_interval"])
p("Adapter: bisection brackets",
  "For every function the legacy root search ends and returns, strictly increasing and inside (-1,1), exactly one number for every pair of mesh neighbours of strictly opposite signs: the centre of an interval between the two, no longer than 1e-14, across which the function changes sign (so within 5e-15 of a zero if the function is continuous). Zeros exactly on mesh points are missed, contrary to the docstring. The sampling points in x and y are strictly interlaced with the roots (with the end points added) and those in y are symmetric under negation.",
  "all functions",
  "All functions.",
  ["adapter.py:_find_roots", "adapter.py:sampling_points_x", "adapter.py:sampling_points_y"])
p("Adapter: basis functions, derivatives and singular values are those of the expansion",
  "An adapter basis accepts the statistics F and B only (KeyError otherwise); ulx, vly and sl give the functions and singular values of the singular value expansion for every l below dim() and every point of [-1,1] (ValueError outside), d_ulx and d_vly their derivatives of every order in the interior of the segments; dim() is the number of singular values not below the accuracy times the first; load picks the kernel by statistics and warns exactly if asked to.",
  "all expansions, statistics, l, points, orders",
  "All reals and orders.",
  ["adapter.py:load", "adapter.py:Basis"])
p("Adapter: compute_unl gives Fourier integrals",
  "compute_unl accepts every integer array; the result has the shape (number of indices, number of functions) with axes of length one removed, and the entry for index n and function l is 1/sqrt(2) times the integral of exp(i*pi*m*(x+1)/2) u_l(x) over [-1,1] with m = 2n+1 for fermions and 2n for bosons, as long as |m| < 40 Lambda (the asymptotic model of the basis function is used beyond).",
  "all adapter bases, integer arrays, l",
  "All integers.",
  ["adapter.py:Basis.compute_unl"])
p("Adapter: Matsubara sampling points",
  "For a basis whose functions alternate in parity sampling_points_matsubara succeeds for every l < dim(): the result is strictly increasing, symmetric under reversal of the frequency, and its non-negative members are, per piece of constant sign of the (purely real or purely imaginary) transform on the search indices, the first index at which its magnitude is largest, with 0 added for bosons. l >= dim() raises RuntimeError. The search indices are strictly increasing, contain 0..n-1 and 10^8 and nothing beyond.",
  "all adapter bases with alternating parity, all l",
  "All bases and l.",
  ["adapter.py:sampling_points_matsubara", "adapter.py:_get_mats_sampling", "adapter.py:_get_unl_real", "adapter.py:_start_guesses"])
# ---- sve.compute as a whole ------------------------------------------------------------------
p("SVE: the result of compute is a valid expansion",
  "Whenever compute returns, whatever kernel, accuracy, cutoff, limit, order, work type and strategy: the singular values are positive, non-increasing and at most n_sv in number; there are equally many left and right functions, piecewise polynomials of the requested order on the hinted segments covering [-1,1]; the stored accuracy is the effective one; every left function is positive at 1; with the centrosymmetric strategy every function has the parity stored with it, the same for both functions of a pair. A non-empty result meets everything the basis classes assume of an expansion.",
  "all kernels, arguments and strategies",
  "All real kernels parameters and all decompositions.",
  ["sve.py:compute", "sve.py:SamplingSVE", "sve.py:CentrosymmSVE"])
p("SVE: error of the computed expansion",
  "If the Legendre rules are exact and the decompositions of the weighted kernel matrices are exact, the squared error of the expansion, summed with the quadrature weights over all nodes (and their reflections, for the centrosymmetric strategy), equals the sum of the squares of the dropped singular values; with a cutoff and no limit it is at most their number times (cutoff times the largest singular value)^2; the left and the right functions are orthonormal on [-1,1].",
  "all kernels, arguments, strategies and exact decompositions",
  "All real matrices.",
  ["sve.py:compute", "sve.py:SamplingSVE", "sve.py:CentrosymmSVE", "sve.py:_truncate"])
p("SVE: which arguments compute accepts",
  "With a documented svd strategy (or none), n_sv None or a non-negative integer and a cutoff in [0,1] (or none), compute ends without an exception; without a cutoff, twice the epsilon of the work type is used; a negative or non-integral n_sv or an invalid cutoff raises ValueError, n_sv = inf OverflowError, an undocumented svd strategy ValueError unless the work type is double-double, where it is ignored.",
  "all kernels and arguments",
  "All argument combinations.",
  ["sve.py:compute", "sve.py:_safe_epsilon", "sve.py:_truncate", "svd.py:compute"])
p("Basis: default sampling frequencies",
  "default_matsubara_sampling_points(npoints, positive_only) of a basis looks at function l_r of the full expansion, l_r the smallest number of the right parity (even for fermions, odd for bosons) not below npoints (default: the size; of an augmented basis: its own size). If the expansion has it, and it has the parity (-1)^l_r and is marked so, the call ends without exception: the frequencies have the parity of the statistics, are strictly increasing, non-negative or symmetric as asked, at each non-negative one the transform vanishes or changes sign to the next frequency, every zero on the search grid is among them, and between two neighbouring grid points with opposite signs there is exactly one. Otherwise they are the extrema of the highest function (0 added for bosons). The warning is given exactly if the number differs from l_r (half of it, rounded up, for positive ones). If the function is not marked as even or odd, as in an expansion made with the sampling strategy, the call raises ValueError. The values searched are the Fourier integrals of the scaled functions for |n| < 40 Lambda.",
  "all bases, numbers of points, search grids",
  "All bases and point numbers.",
  ["basis.py:FiniteTempBasis.default_matsubara_sampling_points", "basis.py:_default_matsubara_sampling_points", "augment.py:AugmentedBasis.default_matsubara_sampling_points", "dlr.py:DiscreteLehmannRepresentation.default_matsubara_sampling_points", "poly.py:PiecewiseLegendreFT.sign_changes", "poly.py:PiecewiseLegendreFT.extrema"])
p("Sampling objects with default points",
  "TauSampling(basis) and MatsubaraSampling(basis, positive_only) use the default points of the basis and equal the objects made with these points given explicitly; the times are increasing and in [0,beta], the frequencies have the right parity. Errors of the search for points are passed on. For an augmented basis this holds with the constant and linear functions in time and, in frequency, for bosons; TauSampling of a basis augmented by the constant in frequency raises ValueError (its values are NaN), MatsubaraSampling of a fermionic basis augmented by functions of time raises ValueError. For a DLR basis the points are those of its basis; MatsubaraSampling raises ValueError if a pole is zero and the frequency zero is sampled. With positive_only and no points IndexError is raised.",
  "all bases, augmented bases and DLR bases",
  "All bases.",
  ["sampling.py:TauSampling.__init__", "sampling.py:MatsubaraSampling.__init__"])
p("Basis sets",
  "FiniteTempBasisSet(beta, wmax, eps, sve_result) raises what the pair of bases or the search for frequencies raises, and otherwise holds a fermionic and a bosonic basis with the same expansion, accuracy, beta and wmax as given (lambda_ = beta*wmax), time sampling for both at the same default times with identical matrices, and frequency sampling at odd frequencies for fermions and even ones for bosons, symmetric around zero. With two functions of alternating parity to spare it is always created.",
  "all arguments",
  "All arguments and expansions.",
  ["basis_set.py:FiniteTempBasisSet"])
p("Kernels: hints and properties",
  "For every Lambda: the hinted number of Gauss points is 10 or 16 and not smaller for higher accuracy; the hinted number of singular values is at least 26, does not decrease with Lambda and is halved (rounded up) for the symmetrized kernels; uhat of a basis made with a kernel is the Fourier integral of u for all frequencies below conv_radius; symmetrized kernels have the ypower and conv_radius of the kernel and cannot be symmetrized again (RuntimeError).",
  "all kernels, accuracies and Lambda",
  "All real parameters.",
  ["kernel.py:_SVEHintsLogistic", "kernel.py:_SVEHintsRegularizedBose", "kernel.py:_SVEHintsReduced", "kernel.py:LogisticKernel.conv_radius", "kernel.py:RegularizedBoseKernel.conv_radius", "kernel.py:ReducedKernel"])
p("Matrices in decomposed form",
  "DecomposedMatrix(a, svd_result) is created for every two-dimensional array (and triple of matching shapes) and raises ValueError otherwise; its u, s, vH multiply to what the given or computed triple multiplies to, with exactly the vanishing singular values dropped; made from a thin SVD they are one with positive singular values; lstsq is the least-squares solution of least norm along any axis, matmul and @ are the product with a; cond raises IndexError exactly for the zero matrix. SplitDecomposedMatrix needs complex u and real vT in addition; for the split form of a complex matrix u*s@vH is that matrix except that the imaginary part of the row of frequency zero is set to zero, vH is real, and lstsq is the real least-squares solution.",
  "all arrays, decompositions and data",
  "All complex matrices of all shapes.",
  ["sampling.py:DecomposedMatrix", "sampling.py:SplitDecomposedMatrix", "sampling.py:_split_complex", "_util.py:check_svd_result"])
p("SVD: factors of a matrix",
  "svd.compute(a, n_sv_hint, strategy) of a real matrix of any shape, tall or wide, with any documented strategy and any set of installed libraries, returns U, s, V with A == (U*s) @ V.T and orthonormal columns, as accurate as the library called for this matrix; which library that is depends on strategy and dtype only, and its rank limit is the smallest of both dimensions and the hint. For complex matrices the full SVD gives A == (U*s) @ V.conj().T and not the documented product. The only exception is ValueError, for an unknown strategy (outside double-double precision) or an invalid argument reported by LAPACK; warnings are given exactly if the Jacobi method is missing, met denormalized numbers or did not converge.",
  "all matrices, hints, strategies, work types and library results",
  "All matrices and all sets of libraries.",
  ["svd.py:compute", "svd.py:_idsvd", "svd.py:_dgejsv", "svd.py:_ddouble_svd_trunc"])
p("Times and frequencies describe the same functions",
  "For every basis, basis augmented by the constant and linear functions (of the same beta, at even frequencies) and DLR basis, u can be evaluated on [0,beta] and uhat at every frequency of the right parity, and uhat_l(n) is the integral of exp(i pi n tau/beta) u_l(tau) over [0,beta] (for |n| < 40 Lambda; for a DLR basis at all frequencies, except n = 0 with a pole at 0). Hence, for an array of functions G given by coefficients along any axis, TauSampling.evaluate gives G(tau_i) and MatsubaraSampling.evaluate the Fourier integrals of G; if the matrix of the time sampling has full rank, fitting values G(tau_i) and evaluating in frequency gives the Fourier integrals of G; if the matrix of the frequency sampling has full rank, fitting the Fourier integrals of G and evaluating in time gives G(tau_i), also with positive_only if the coefficients are real.",
  "all bases, points, axes and arrays of functions",
  "All functions, points and array shapes.",
  ["sampling.py:TauSampling", "sampling.py:MatsubaraSampling", "basis.py:FiniteTempBasis.u", "basis.py:FiniteTempBasis.uhat", "augment.py:AugmentedBasis", "dlr.py:DiscreteLehmannRepresentation"])

p("SVE: singular value equations",
  "The functions of the expansion returned by sve.compute satisfy the equations of singular functions, integral of K(x,y) v_l(y) dy = s_l u_l(x) and integral of K(x,y) u_l(x) dx = s_l v_l(y), at every node of the composite Gauss rules on the hinted segments, with the integrals replaced by these rules; they are orthonormal for these rules as well as on [-1,1]. Cut off after its first N functions, for any N, the expansion misses of the weighted sum of squares of the kernel exactly what exceeds the sum of the squares of the first N singular values. All this holds for a complete or a truncated SVD of the weighted matrices.",
  "all kernels, accuracies, cutoffs, sizes, quadrature orders and strategies",
  "All nodes, cuts and kernels.",
  ["sve.py:compute", "sve.py:SamplingSVE", "sve.py:CentrosymmSVE", "kernel.py:matrix_from_gauss"])
p("SVE: best approximation",
  "No sum of N products of a function of x and a function of y is closer to the kernel, in the weighted sum of squares over the nodes, than the expansion returned by sve.compute cut off after its first N functions, for each N up to its length. With a cutoff below one and no limit n_sv, the expansion of a positive kernel has at least one function.",
  "all kernels, accuracies, cutoffs, sizes, strategies and competing sums of products",
  "All functions a_l(x), b_l(y).",
  ["sve.py:compute", "sve.py:SamplingSVE", "sve.py:CentrosymmSVE", "sve.py:_truncate"])

p("Basis: singular value expansion of the kernel in tau and omega",
  "FiniteTempBasis(statistics, beta, wmax, eps, max_size=..., kernel=...) is the basis made from sve.compute(kernel, eps) and returns for all valid arguments. In the physical variables the sum of s_l u_l(tau) v_l(omega) expands exp(-tau omega)/(1 + exp(-beta omega)) if no kernel is given, and for any other kernel K(2 tau/beta - 1, omega/wmax) divided by wmax^ypower: u_l are orthonormal on [0,beta], v_l on [-wmax,wmax], they satisfy the equations of singular functions at the nodes of the composite Gauss rules moved to these intervals, the sum of squares missed is that of the kernel less the sum of s_l^2, and no sum of as many products is closer. u_l(beta) > 0, and u_l and v_l are both even or both odd about beta/2 and 0. With the regularised bosonic kernel this is omega exp(-tau omega)/(1 - exp(-beta omega)) divided by wmax^2.",
  "all statistics, temperatures, cutoffs, accuracies, sizes, kernels and ways of computing the expansion",
  "All bases, nodes and competing sums.",
  ["basis.py:FiniteTempBasis.__init__", "basis.py:_get_kernel", "sve.py:compute", "kernel.py:LogisticKernel", "kernel.py:RegularizedBoseKernel", "kernel.py:AbstractKernel.ypower"])

p("SVE and basis: stable under errors of the decomposition",
  "If the library's decomposition of a weighted kernel matrix has orthonormal vectors and ordered values but differs from the matrix by d in the root of the sum of squares (through rounding or because it stops at n_sv values), the expansion returned by sve.compute cut off after N functions differs from the kernel, in the weighted sum of squares over the nodes, by at most d plus the root of the squares of the values left out, and by at most 2 d more than any other sum of N products. With the centrosymmetric strategy d is the root of the sum of squares of the errors of the two decompositions. The same holds for the basis made from the expansion in tau and omega, with d multiplied by sqrt(beta wmax/2) wmax^(-ypower). A decomposition limited to the N largest values is right up to the root of the sum of squares of the others.",
  "all kernels, decompositions and their errors, accuracies, cutoffs, sizes, strategies and competing sums of products",
  "All matrices, perturbations and functions.",
  ["sve.py:compute", "sve.py:SamplingSVE", "sve.py:CentrosymmSVE", "svd.py:compute", "basis.py:FiniteTempBasis.__init__"])

p("SVE: with the installed SVD libraries",
  "sve.compute(kernel, eps, ...) calls svd.compute once for each matrix it decomposes: the weighted even and odd parts of the kernel, or the whole kernel without symmetrisation, on the composite Gauss rule of the requested or hinted order, with the work type and strategy chosen from eps and the installed libraries and with the number of values the kernel hints at. If what svd.compute returns for these matrices is what it documents up to an error in each entry, the expansion, cut off after any number of functions, and the basis made from it in tau and omega are as close to the kernel as those errors and the values left out allow, and up to twice the errors closest possible. The accuracy warning is given exactly if no strategy is requested and the requested accuracy is below that of the work type; the warning about the missing Jacobi method exactly if that method is needed and not installed; no other warning is possible without that method. Exceptions are those of C75, unless the Jacobi method rejects its arguments.",
  "all kernels, accuracies, sets of installed libraries and their results, errors, strategies and competing sums",
  "All sets of libraries, matrices and errors.",
  ["sve.py:compute", "sve.py:_safe_eps", "svd.py:compute", "sve.py:SamplingSVE", "sve.py:CentrosymmSVE", "basis.py:FiniteTempBasis.__init__"])

p("Kernel: values in rounded arithmetic",
  "If every addition, multiplication and division has relative error u (with gradual underflow) and the elementary functions have relative error e, the value of a kernel at (x, y) is off by at most (9 u + 3 e) times the largest value at this y: 1 for the logistic kernel, |y| + 1/Lambda for the regularised bosonic one; for all cutoffs up to 1e90, so that nothing is lost at x close to -1 or 1 or for large Lambda. If x_plus and x_minus are given and are the distances of a point X from the ends up to relative error r, the value is that at X, which need not be representable, up to (r + 8 u + 3 e) times the largest value. Even and odd kernels are off by at most (2 r + 3 s + 20 u + 5 e) times that value, where s is the error of x, whether or not the closed form of the odd kernel is used. In doubles with elementary functions good to one unit in the last place, values of the logistic kernel have absolute error below 2^-49. Exceptions do not depend on the arithmetic.",
  "all points, distances, cutoffs up to 1e90, roundings and elementary functions with these errors",
  "All real points and all roundings; the bound must hold uniformly in the cutoff.",
  ["kernel.py:LogisticKernel.__call__", "kernel.py:LogisticKernel._compute", "kernel.py:RegularizedBoseKernel._compute", "kernel.py:_compute_uv", "kernel.py:ReducedKernel.__call__", "kernel.py:_LogisticKernelOdd.__call__", "kernel.py:_RegularizedBoseKernelOdd.__call__"])

p("Quadrature rules and kernel matrices in rounded arithmetic",
  "If every operation has relative error u (with gradual underflow), the elementary functions have relative error e, and the reference Gauss rule has errors s in its nodes and relative errors w in its weights and r in its distances from the ends, the composite rule made by Rule.piecewise has relative errors w + 5 u in its weights and r + 6 u in its distances from both ends, however short the segments are and however close the nodes lie to the ends; its nodes have errors (s + 7 u) times the larger end of their segment. The matrix sve.compute decomposes, sqrt(w_i) K(x_i, y_j) sqrt(w_j), has entries off by at most (r + 3 w + 4 k (s + 7 u) + 30 u + 3 e) sqrt(w_i w_j) times the largest value of the kernel at y_j, its even and odd versions by (2 r + 3 s + 5 w + 7 k (s + 7 u) + 85 u + 5 e) times the same, for all cutoffs up to 1e90; k is 2 divided by the distance of the nodes of the reference rule from -1 and 1 if 0 is not inside a segment, as for the segments the kernels hint at. Exceptions depend on the segments only.",
  "all reference rules and their errors, segments, kernels, cutoffs up to 1e90, roundings and elementary functions with these errors",
  "All roundings, rules, segments and cutoffs; the bound must be uniform in the cutoff.",
  ["_gauss.py:Rule.reseat", "_gauss.py:Rule.join", "_gauss.py:Rule.piecewise", "kernel.py:matrix_from_gauss", "sve.py:SamplingSVE"])

p("SVE and basis: from kernel matrices computed in rounded arithmetic",
  "If every operation has relative error u, the elementary functions relative error e and the reference Gauss rule errors s, w and r as in C89, the kernel matrices that sve.compute decomposes on the segments hinted at by LogisticKernel or RegularizedBoseKernel, with 1e-50 <= Lambda <= 1e16, differ from the exact ones by at most E = 2 (r + 3 w + 4 k (s + 7 u) + 30 u + 3 e) m in the root of the sum of squares of all entries, whatever the number of segments; m is 1 or 1 + 1/Lambda and k is as in C89. The even and odd matrices differ by at most (2 r + 3 s + 5 w + 7 k (s + 7 u) + 85 u + 5 e) m. If the library decomposes the rounded matrices up to d, the expansion returned by sve.compute, cut off after any number of functions, misses the kernel by at most d + E and the values left out, and is closest possible up to 2 (d + E); the same holds for the basis made from it in tau and omega, in units of sqrt(beta wmax/2) wmax^(-ypower).",
  "all kernels of the library with cutoffs up to 1e16, reference rules and their errors, roundings, elementary functions and decompositions with these errors, sizes and competing sums",
  "All cutoffs, roundings and decompositions; the bound must not grow with the number of segments.",
  ["sve.py:compute", "sve.py:SamplingSVE", "sve.py:CentrosymmSVE", "kernel.py:matrix_from_gauss", "kernel.py:_SVEHintsLogistic.segments_x", "kernel.py:_SVEHintsLogistic.segments_y", "_gauss.py:Rule.piecewise", "basis.py:FiniteTempBasis.__init__"])

p("SVE and basis: from decompositions with nearly orthonormal vectors",
  "SVD routines return vectors that are orthonormal up to rounding only. If the k left and the k right vectors of the library's decomposition of a weighted kernel matrix are orthonormal up to a and c (root of the sum of squares of the entries of U^T U - 1 and V^T V - 1), k is not larger than the matrix, the values are ordered with largest s, and the product differs from the matrix by d, the expansion returned by sve.compute cut off after any number of functions misses the kernel by at most d + 2 s (a + c + a c) and the values left out, and up to twice this error no other sum of as many products is closer. The functions of the expansion are orthonormal up to a and c: their inner products are off by at most that. With the centrosymmetric strategy the errors of the two decompositions add in squares. The same holds of the basis made from the expansion in tau and omega, and if the matrices are computed in rounded arithmetic, with d increased by the error bounds of C90. Nothing is lost if the vectors are exactly orthonormal.",
  "all kernels, decompositions and their errors, accuracies, cutoffs, sizes, strategies and competing sums of products",
  "All matrices and all nearly orthonormal sets of vectors.",
  ["sve.py:compute", "sve.py:SamplingSVE", "sve.py:CentrosymmSVE", "svd.py:compute", "basis.py:FiniteTempBasis.__init__"])

p("Piecewise polynomials: rounding error of values",
  "In rounded arithmetic, every operation having relative error u and absolute error eta, calling a piecewise polynomial at a point of segment [a, b] returns, with either form of numpy's Clenshaw recurrence, a value that differs from that of the mathematical function by at most 60 n^2 (6 + 5 max(|a|, |b|) / (b - a)) u times sqrt(2 / (b - a)) times the sum of the absolute values of the n coefficients of that segment (plus eta-terms), as long as that number of units of rounding is below 1 / u. No bound on the polynomials' degrees, the knots or the number of segments is needed, and the points may lie on the knots. value(l, x), p[l](x), entry l of p(x) and entries of array calls agree to the last bit, and rounding does not change which calls raise exceptions. The stored segment lengths may be exact or computed from the knots in the same arithmetic.",
  "all piecewise polynomials (orders, knots, coefficients), points, indices, arrays and rounding functions",
  "Errors depend on all coefficients and on where a point lies in a segment.",
  ["poly.py:PiecewiseLegendrePoly.__call__", "poly.py:PiecewiseLegendrePoly.value", "poly.py:PiecewiseLegendrePoly._split", "poly.py:PiecewiseLegendrePoly.__init__"])

p("Sampling: evaluate and fit in rounded arithmetic",
  "Let A be the matrix of n computed values of basis functions at m sampling points. In rounded arithmetic, where inner products of up to N terms have error gam times the sum of the absolute values of their terms and other operations relative error u (in doubles 6 N 2^-53 and 9 2^-53, whatever the order of summation, with or without fused operations, and with both of numpy's divisions), evaluate returns along any axis the value of each expansion up to gam times the sum of the absolute values of its terms. If the library's decomposition of A has singular values in [lo, hi], vectors orthonormal up to a and c and a product that is off by d, fit returns for each slice x coefficients that differ from any g by at most (c + 2 (hi/lo) a + 2 d/lo) |g| + 2 |A g - x|/lo + 4 (gam + u) sqrt(n) |x|/lo; for the least-squares solution g the residual |A g - x| counts with weight d/lo only. fit(evaluate(g)) differs from g by at most (c + 2 (hi/lo) a + 2 d/lo + 7 (gam + u) sqrt(n) (2 hi/lo + d/lo)) |g|, plus underflow terms. The same holds with positive_only among real coefficients. The conditioning warning is issued exactly if the basis is well-conditioned and the condition number exceeds 1e8, up to one rounding; rounding changes neither the shapes nor the exceptions. If the computed values are off by e from those of the true basis functions, evaluate is off by e times the sum of absolute coefficients and fit by 2 e sqrt(m n) |g|/lo more.",
  "all matrices, decompositions and their errors, arrays, axes, points, summation orders and roundings with these errors",
  "All arrays, shapes, axes, matrices and orders in which a library may add.",
  ["sampling.py:AbstractSampling.evaluate", "sampling.py:AbstractSampling.fit", "sampling.py:DecomposedMatrix.matmul", "sampling.py:DecomposedMatrix.lstsq", "sampling.py:DecomposedMatrix._lstsq", "sampling.py:SplitDecomposedMatrix.lstsq", "sampling.py:SplitDecomposedMatrix._lstsq", "sampling.py:DecomposedMatrix.cond", "sampling.py:_matop_along_axis"])

p("Bases: attributes after any sequence of operations",
  "For every object made from a FiniteTempBasis by a sequence of slicing, rescale, AugmentedBasis and DiscreteLehmannRepresentation: beta is that of the last rescale (or of the first basis), lambda_ == beta*wmax and agrees with kernel.lambda_ to within 4e-16 (exactly after rescale); wmax is unchanged without rescale; shape == (size,), size > 0, and u(tau) and uhat(n) have one row per function; statistics is that of the first basis (an augmented basis raises TypeError); significance has one number in (0, 1] per function (for augmented bases none for the augmentations, contrary to the documentation); accuracy is in (0, 1]; kernel and sve_result are those of the first basis; is_well_conditioned is True for a basis, for an augmented basis iff the only augmentation is MatsubaraConst, and False for a DLR.",
  "all bases the constructor accepts, all sequences of operations with all their arguments (bounds, temperatures, augmentations, poles), all times and frequencies",
  "sequences of operations are unbounded and their arguments range over reals; tests read attributes of a few freshly constructed objects",
  ["abstract.py:AbstractBasis", "basis.py:FiniteTempBasis", "augment.py:AugmentedBasis", "dlr.py:DiscreteLehmannRepresentation"])

p("SVE: coefficients of singular functions in rounded arithmetic",
  "sve.compute turns each singular vector into Legendre coefficients on each segment by a collocation matrix. If every operation has relative error u (with gradual underflow), the nodes and weights of the reference rule of n points are off by s and, relatively, w, and inner products of n terms by g times the sum of the absolute values of the terms, then the computed coefficient of degree k on a segment differs from that of the exact rule by at most (2 k + 1) (n^2 (6 u + 2 s) + 2 w + 13 u + g) times the norm of the part of the vector belonging to that segment (plus underflow terms), whatever the length of the segment and the number of segments. The function made from the coefficients is off by at most n^2 times that number times sqrt(2/L) on a segment of length L, everywhere on the segment, and calling it adds the errors of C92. Legendre polynomials up to degree n - 1 computed with numpy's recurrence at a rounded node are off by at most n^2 (7 u + 2 s). Inner products may be summed in any order, with or without fused operations: then g = 2 n u.",
  "all vectors, segments, reference rules and their errors, orders, degrees, points, summation orders and roundings",
  "All roundings, vectors and segments; the bound must be uniform in the number and the length of segments.",
  ["sve.py:SamplingSVE.postprocess", "_gauss.py:legendre_collocation", "poly.py:PiecewiseLegendrePoly.__init__"])

p("SVE: the whole computation in rounded arithmetic",
  "Let every operation of sve.compute be rounded (rules, kernel matrices, collocation, segment lengths, sign convention, merging of even and odd parts, truncation, conversion to the result type), with relative error u, elementary functions, reference rule and inner products with the errors of C88, C89 and C95, and let the library's decompositions have the errors of C91. Then, for the kernels of the library with 1e-50 <= Lambda <= 1e16, the functions of the returned expansion are orthonormal up to the lack of orthogonality of the vectors and four times the error of the coefficients, and the expansion, cut off after any number of functions, is as close to the kernel as the sum of all errors (matrix, decomposition, values, coefficients, orthogonality) and the values left out allow, and up to twice this error no sum of as many products is closer; with and without symmetrisation. The values kept are exactly those above the rounded product of cutoff and largest value, of which no more than n_sv are left. If rules, matrices and decompositions exist, sve.compute does not raise.",
  "all kernels of the library with cutoffs up to 1e16, reference rules, roundings, summation orders, decompositions and their errors, accuracies, cutoffs, sizes, strategies and competing sums",
  "All roundings and decompositions; the errors of all steps must be added up for every cutoff and size.",
  ["sve.py:compute", "sve.py:SamplingSVE", "sve.py:CentrosymmSVE", "sve.py:_canonicalize", "sve.py:_truncate", "_gauss.py:legendre_collocation", "poly.py:PiecewiseLegendrePoly.__init__"])

p("Fourier transforms of basis polynomials in rounded arithmetic",
  "Below the asymptotic threshold, each number returned by a PiecewiseLegendreFT on [-1, 1] (uhat of a basis) differs from the true Fourier integral of the polynomial with the stored knots and coefficients, divided by sqrt(2), by at most sum over segments of sqrt(length) * ((2 S + 40) |n| r u + d) * sum of |coefficients|, up to underflow, where S is the number of segments, u the unit of rounding, r the distance of the far end of the segment from the nearest of -1, 0, 1, and d the error of the library's Bessel functions, cosines and products. In particular the phase does not lose digits on segments close to the ends of the interval. From the threshold on the value of the high-frequency model is returned. The call succeeds exactly when all frequencies have the declared parity.",
  "all knots in [-1, 1] with stored segment lengths rounded, all coefficients, all integer frequencies, all roundings, summation orders and libraries with given errors",
  "A test sees some polynomials and frequencies; the loss of digits depends on the frequency and on the position of the segment.",
  ["poly.py:PiecewiseLegendreFT.__call__", "poly.py:_compute_unl_inner", "poly.py:_phase_stable", "poly.py:_shift_xmid", "poly.py:_get_tnl"])

p("Bases in rounded arithmetic",
  "FiniteTempBasis(statistics, beta, wmax, eps, sve_result=r) with every operation rounded (relative error u, gradual underflow): the singular values are sqrt(beta/2*wmax)*wmax**(-ypower) times those of r up to 6 u and the error of the power function; accuracy is right up to one rounding; a singular value is kept if it is above eps times the first and dropped if below, where one rounding of that product decides, and never more than max_size are kept. u(tau) returns sqrt(2/beta) times the functions of r at a point within 3.2 u (x + 1) of x = 2 tau/beta - 1, up to 240 n^2 (6 + 5 (x + 1)/length) u, in the right segment, for every tau between the ends, although scaled knots may coincide; v(w) likewise; in doubles the ends are exactly 0, beta, -wmax and wmax. uhat(n) below the threshold 40 Lambda is the Fourier integral of that function over [0, beta] up to the error of C97 and three more roundings. The constructor succeeds whenever each segment is longer than 2e6 u times the distance of its far end from x = -1 (or that distance times beta/2 is below 1e-9/(2 u)); otherwise it may raise ValueError for a valid expansion.",
  "all expansions whose segment lengths are rounded differences of the knots, all beta, wmax, eps, max_size, kernels, times, real frequencies, Matsubara frequencies, roundings and libraries with given errors",
  "Errors depend on beta, wmax, the segment and the point; a test sees a few bases at moderate temperatures.",
  ["basis.py:FiniteTempBasis.__init__", "basis.py:_get_kernel", "sve.py:SVEResult.part", "poly.py:PiecewiseLegendrePoly.__init__", "poly.py:PiecewiseLegendrePoly.__call__"])

p("Bases computed from scratch in rounded arithmetic",
  "FiniteTempBasis(statistics, beta, wmax, eps) without sve_result builds the same basis as with the result of sve.compute(kernel, eps). With every operation of both rounded, the polynomials it stores make a basis b0 in exact arithmetic, of the same size, such that: the functions u and v of b0 are orthonormal on [0, beta] and [-wmax, wmax] up to the errors of the library's decompositions and of the Legendre coefficients; for every size not larger than that of b0, cutting b0 there approximates the kernel in tau and omega, on the quadrature grid, as well as any sum of as many products of functions, up to beta/2*wmax (times a power of wmax) times the errors of the rule, kernel, decompositions and coefficients; the returned singular values are those of b0 up to 6 u and the error of the power function; u(tau) and v(omega) return the values of the functions of b0 at a point within 1.6 u (3.2 u) of the distance from the origin, up to the error of C98; and uhat(n) below the threshold returns the Fourier integrals of the functions u of b0 over [0, beta] up to the error of C98.",
  "all kernels of the library with cutoffs up to 1e16, beta, wmax, eps, max_size, options of sve.compute, reference rules, decompositions and their errors, roundings, times, real and Matsubara frequencies",
  "The errors of the whole chain (rule, kernel, decomposition, coefficients, scaling, evaluation) must be added up for every temperature, cutoff and size.",
  ["basis.py:FiniteTempBasis.__init__", "sve.py:compute", "basis.py:_get_kernel"])

p("Sampling on computed bases: from times to frequencies and back in rounded arithmetic",
  "Let a basis be constructed, its sampling matrices computed and decomposed, and data fitted and evaluated, all in rounded arithmetic. TauSampling(basis, pts) raises ValueError exactly if some point is outside the interval of u, MatsubaraSampling exactly (without positive_only) if some frequency has the wrong parity. evaluate of coefficients g returns, along any axis of an array of any rank, the values of the function sum g_l u_l at times within 3.2 u of the sampling times relative to the right end of the segment, or its Fourier integrals over [0, beta] at the sampling frequencies, up to rho times the errors of the inner products plus sqrt(L) times the error e of the values of the basis functions, times the norm of g; for frequencies rho = sqrt(beta (1 + L a)), where a is the deviation of the functions u from orthonormality. TauSampling.fit followed by MatsubaraSampling.evaluate returns the Fourier integrals of any function sum g_l u_l up to rho times the error of the fit, which is the distance of the data from the function's values times the inverse of the smallest singular value plus rounding times the condition number; likewise in the other direction, and with positive_only=True for real coefficients. Without rounding, sampling asks the basis for the same values as in exact arithmetic.",
  "all bases built in rounded arithmetic, sampling times and frequencies below the threshold, data arrays of all shapes and axes, coefficients, roundings, libraries and decompositions with given errors",
  "The errors of basis functions, matrices, decompositions and fits add up for every basis, set of points and data; tests compare a few round trips with a tolerance.",
  ["sampling.py:TauSampling", "sampling.py:MatsubaraSampling", "sampling.py:DecomposedMatrix", "sampling.py:SplitDecomposedMatrix", "basis.py:FiniteTempBasis"])

p("Slicing and rescaling in rounded arithmetic",
  "With every operation of the constructor rounded: basis[:n] is a basis of the same beta, wmax, statistics, kernel and expansion, and its u, s, v and uhat return, number by number, the first n entries of those of the basis; its size is the smaller of n and the number of singular values that reach the tolerance of the expansion. rescale(new_beta) keeps statistics, kernel and expansion, sets beta to new_beta and wmax to the rounded Lambda / new_beta, never increases the size, raises ZeroDivisionError for zero and ValueError for negative new_beta, and in doubles never fails at the comparison of Lambda. A basis is determined by its setting and size, so that after any sequence of slices and rescalings it equals any other that was reached with the same last scale and size: nothing drifts, and lambda_ stays within 4e-16 (1 + 5 u) of Lambda of the kernel. significance starts at 1, does not increase, lies between 0 and 1, and is the ratio of the singular values of the expansion up to 4 u. The fermionic and the bosonic basis of finite_temp_bases, and of a FiniteTempBasisSet, share u, s, v, accuracy, kernel and expansion, and exist together. Rescaling to the beta a basis has may change wmax by one unit in the last place, and rescaling to some positive beta can fail.",
  "all bases built in rounded arithmetic, slices, temperatures, histories of slices and rescalings, roundings, expansions and power functions",
  "Histories are unbounded, and equality of every number after them is about all temperatures and sizes.",
  ["basis.py:FiniteTempBasis.__getitem__", "basis.py:FiniteTempBasis.rescale", "basis.py:FiniteTempBasis.significance", "basis.py:finite_temp_bases", "basis_set.py:FiniteTempBasisSet"])

p("Default sampling points in rounded arithmetic",
  "In doubles, default_tau_sampling_points and default_omega_sampling_points return for every basis and every npoints >= 0: the search always ends. On [-1, 1] the points are doubles in increasing order, exactly symmetric about 0 if the function they come from has a declared parity (with 0 among them if it is odd). They include a point for each change of sign of the computed values between neighbouring knots (on the half that is searched, for functions not declared odd). Each that is a root is within one machine epsilon of a place where the polynomial it comes from, as stored, is smaller than the error of its evaluation or changes sign across a knot, or is the mirror image of such a point or the centre of an odd function. The polynomial is number npoints of the expansion, or the computed derivative of its last one, whose coefficients represent the true derivative up to a given error. The warning is given exactly if the number of points is not the requested one. Moved to tau they are in increasing order and never outside the interval where u can be called, so that TauSampling accepts them; moved to omega they are within the interval of v and stay exactly symmetric.",
  "all bases built in doubles on expansions whose knots are doubles, all npoints, both versions of the summation of Legendre series in numpy, all sign bits of computed zeros",
  "Termination of the bisection and the location of every point must hold for all coefficients, including those for which computed values are noise near a root; tests look at a few kernels.",
  ["basis.py:FiniteTempBasis.default_tau_sampling_points", "basis.py:FiniteTempBasis.default_omega_sampling_points", "basis.py:_default_sampling_points", "poly.py:PiecewiseLegendrePoly.roots", "poly.py:PiecewiseLegendrePoly.deriv", "poly.py:_refine_grid", "_roots.py:find_all"])

p("Default Matsubara sampling points in rounded arithmetic",
  "For a basis built in rounded arithmetic, default_matsubara_sampling_points searches computed values of uhat, which are called with whole arrays of frequencies; the number for one frequency may depend on the others in the call. The search always ends. The points are frequencies of the right parity, not negative with positive_only and symmetric otherwise. If there is a spare function with a declared parity, they increase strictly, each that is not negative is one at which a zero is returned or between which and the next frequency the returned numbers change sign, no zero on the search grid is missed, and between neighbours on the grid whose numbers have opposite signs there is exactly one point. Otherwise the extrema of the last function are used: ends of the grid where the magnitude falls away or the sign changes and one maximum of the computed magnitude per turn on the grid, plus frequency 0 for bosons. A warning is issued iff the number of points is not the expected one, and a function without parity is a ValueError. Every number searched is within an explicit distance of the coordinate of the Fourier integral of the stored polynomial (or the high-frequency model beyond its threshold). So at every point, or the next frequency, the true value is within that distance of 0 or the true function changes sign; true sign changes between grid neighbours with values beyond that distance are found exactly once; computed maxima are true maxima up to that distance. MatsubaraSampling(basis) at these points is never refused, except with an IndexError if positive_only leaves no point.",
  "all bases built in rounded arithmetic, statistics, npoints, search grids, values of positive_only, libraries and roundings, sign bits of computed zeros, high-frequency models",
  "The claims are about every pattern of rounding errors in the values that are searched, including a value that differs between calls; tests look at a few kernels.",
  ["basis.py:FiniteTempBasis.default_matsubara_sampling_points", "basis.py:_default_matsubara_sampling_points", "poly.py:PiecewiseLegendreFT.sign_changes", "poly.py:PiecewiseLegendreFT.extrema", "_roots.py:find_all", "_roots.py:discrete_extrema", "sampling.py:MatsubaraSampling"])

p("High-frequency model of Fourier transforms in rounded arithmetic",
  "From its threshold on (n_asymp; 40 Lambda for the uhat of a basis), a Fourier transform returns the value of a series in 1/(i pi n/2), whose moments it makes from the derivatives of the polynomials at x = 1, the m-th derivative being computed from the (m-1)-th. With every operation rounded, the moments exist whenever a parity of frequencies is declared (otherwise KeyError) and each differs from that made of the true m-th derivative by at most an explicit bound, in which a derivative can multiply earlier errors by 2 n^2 divided by the length of the last segment; the value of the series at n != 0 differs from the true series by at most the moments' errors weighted by powers of 2/(pi |n|), plus 11 (m+1) u relative to each term; at n = 0 it is 0. A call of the transform returns these values for all frequencies from the threshold on, also after slicing. For a function with the parity of its index this is the Fourier integral over [-1, 1], up to those errors and to the jumps of the function and its derivatives at inner knots. For a basis it holds of uhat and uhat_full, with the coefficients stored there.",
  "all sets of polynomials with right end 1 and a last segment that is not too short, orders, coefficients, frequencies, thresholds, slices, roundings and values of pi with given errors",
  "Derivatives of high order amplify errors by the square of the order and the inverse length of the segment each time; the bound must hold for all coefficients and frequencies.",
  ["poly.py:PiecewiseLegendreFT.__call__", "poly.py:_PowerModel", "poly.py:_derivs", "poly.py:_power_moments", "poly.py:_power_model", "poly.py:PiecewiseLegendrePoly.deriv", "basis.py:FiniteTempBasis.uhat"])

p("Discrete Lehmann representation in rounded arithmetic",
  "With every operation rounded: for poles that are not all zero, calling u of a DLR at times in [0, beta] succeeds, and each value is that of the time function of the pole at some time within 3 u beta of the given one, up to 12 u plus three times the error of the exponential function; at the given time itself the error is larger by 3 beta |pole| u. Times outside raise RuntimeError. Each value of uhat is the Fourier integral of the time function with relative error at most 23 u plus twice the error of tanh, however close or far the pole is; a pole at zero meeting frequency zero gives NaN. The entries of the transfer matrix differ from -s v by the errors of the stored singular values and of the computed values of v and one rounding. to_IR along any axis returns coefficients whose expansion in the basis is the same function of time as the expansion in the poles, up to the truncation of the kernel at the poles, the errors of that matrix and the error of the product. from_IR is least squares up to the errors of the decomposition and of rounding, and from_IR(to_IR(g)) returns g up to an explicit error. Other kernels and an empty list of poles raise ValueError. Without rounding these are the functions of the exact model.",
  "all poles, inverse temperatures, times, frequencies of the right parity, bases, arrays and axes, orders of summation, libraries and roundings with given errors",
  "Rounding errors in 2 tau/beta - 1 and in the complex division could be amplified for some pole or frequency; tests look at a few of each.",
  ["dlr.py:DiscreteLehmannRepresentation.__init__", "dlr.py:DiscreteLehmannRepresentation.from_IR", "dlr.py:DiscreteLehmannRepresentation.to_IR", "dlr.py:TauPoles.__call__", "dlr.py:MatsubaraPoles.__call__"])

p("Augmentations and augmented bases in rounded arithmetic",
  "With every operation rounded, TauConst and TauLinear give in [0, beta] the values of the orthonormal constant and linear function up to 9 u sqrt(3/beta), where sqrt(3/beta) is the largest value they take; their derivatives of positive order have relative error at most 5 u, and hat gives their Fourier integrals at every even frequency with relative error at most 10 u, zeros being exact. Times outside and odd frequencies raise ValueError as in exact arithmetic, and MatsubaraConst is not affected. The rows of u and uhat of an augmented basis are those of the augmentations followed by those of the basis, and u and uhat can be called exactly where the basis and all augmentations are defined (otherwise ValueError).",
  "all inverse temperatures (1e-100 to 1e100 in doubles), times, even frequencies (up to 1e100 in absolute value), orders of derivative, lists of augmentations, bases built in rounded arithmetic",
  "The bounds are for every temperature, time and frequency; a test samples a few, and compares doubles with doubles.",
  ["augment.py:TauConst", "augment.py:TauLinear", "augment.py:MatsubaraConst", "augment.py:AugmentedBasis.u", "augment.py:AugmentedBasis.uhat", "augment.py:_AugmentedFunction.__call__"])

p("Overlap integrals in double precision",
  "In double precision, whatever the order in which np.sum adds, overlap divides the domain without gaps or overlaps: halving an interval between doubles never leaves it, and after every level the converged and pending intervals, all with double ends, tile the domain along the knots and break points; a warning is issued exactly if intervals are pending. The value is the sum over the converged intervals of the doubles that the 15-point rule produces there (computed polynomial times integrand at the computed nodes times computed weight), and the error estimate that of the differences of the two rules, up to a relative error of a few units of rounding of the sum of absolute values. Without a warning, each interval passed the test of the tolerance relative to a tiling of the whole domain, up to rounding. Without rounding this is the computation of C31.",
  "all sets of polynomials with double knots, integrands and numbers of components, tolerances, break points, limits, orders of summation",
  "Inner points of intervals, nodes, weights, sums and the convergence test are all rounded; that no interval is lost or counted twice must hold for every refinement history.",
  ["poly.py:PiecewiseLegendrePoly.overlap", "poly.py:_compute_overlap", "_gauss.py:NestedRule.reseat", "_gauss.py:kronrod_31_15"])

here = os.path.dirname(os.path.abspath(__file__))
with open(os.path.join(here, "..", "properties.jsonl"), "w") as f:
    for x in P:
        f.write(json.dumps(x, ensure_ascii=False) + "\n")
print(len(P))
