{"id": "C01", "title": "Reduced Matsubara frequencies are validated exactly", "statement": "Evaluating a Fourier-transformed basis function (uhat, augmentation .hat) on an array of frequencies succeeds iff every element is an integer value representable as int64 and, when a statistics is fixed, has the matching parity (odd for fermions, even for bosons, negatives included); otherwise ValueError. The accepted values are used unchanged and in order.", "quantifier": "all integer or float arrays (NaN, infinities, fractional values, negative and huge values included), all parities", "why_tests_cant": "The accepted set is infinite and the corner cases (negative parity with &, truncation of floats, out-of-range casts) form an unbounded family.", "anchors": ["src/sparse_ir/_util.py:check_reduced_matsubara", "src/sparse_ir/poly.py:PiecewiseLegendreFT.__call__", "src/sparse_ir/augment.py:TauConst.hat"]}
{"id": "C02", "title": "Range validation accepts exactly the closed interval", "statement": "Evaluating u, v, or an augmentation at points x succeeds only if every point lies in the closed domain [xmin, xmax]; any point outside, and NaN or infinity, yields ValueError and no partial result; the points are passed on unchanged.", "quantifier": "all arrays of floats incl. NaN/inf, all finite bounds", "why_tests_cant": "Universally quantified over reals and over array contents; NaN must be rejected by comparison semantics, not by an explicit check.", "anchors": ["src/sparse_ir/_util.py:check_range", "src/sparse_ir/poly.py:PiecewiseLegendrePoly._split"]}
{"id": "C03", "title": "A supplied SVD triple is accepted iff its shapes chain", "statement": "Constructing a decomposed matrix from a user-supplied SVD succeeds iff u is m x k, s has k entries and vH is k x n with (m, n) the matrix shape; otherwise ValueError.", "quantifier": "all shapes of u, s, vH and of the matrix", "why_tests_cant": "Shape space is infinite.", "anchors": ["src/sparse_ir/_util.py:check_svd_result", "src/sparse_ir/sampling.py:DecomposedMatrix.__init__"]}
{"id": "C04", "title": "Vectorised evaluation is element-wise for arrays of any shape", "statement": "uhat(n) (and DLR u/uhat) evaluated on an array n of any number of dimensions has shape (basis size,) + n.shape, and its entry at [l, idx] equals entry l of the evaluation on the 1-D array holding just n[idx]; the asymptotic model of uhat gives shape n.shape + (basis size,) with the same values element by element.", "quantifier": "all array ranks and shapes, all index tuples", "why_tests_cant": "Ranks and shapes are unbounded; row-major ravel/reshape arithmetic must invert for every shape.", "anchors": ["src/sparse_ir/_util.py:RavelArgumentDecorator.__call__", "src/sparse_ir/poly.py:PiecewiseLegendreFT.__call__", "src/sparse_ir/dlr.py:MatsubaraPoles.__call__"]}
{"id": "C05", "title": "Which object a shape-decorated method evaluates, for every history of accesses and calls", "statement": "A call through an attribute access obj.method(x) that is not interleaved with another access evaluates obj. In general a call evaluates the object of the most recent attribute access to that method anywhere in the program (any thread, any object of the class); hence two threads evaluating uhat of different bases, or a stored bound method, can evaluate the wrong object.", "quantifier": "all finite histories of attribute accesses and calls, all interleavings of any number of threads", "why_tests_cant": "Depends on the global history of accesses and on thread interleavings.", "anchors": ["src/sparse_ir/_util.py:RavelArgumentDecorator.__get__", "src/sparse_ir/_util.py:RavelArgumentDecorator.__call__"]}
{"id": "C06", "title": "Discrete sign changes: sound, complete, ordered, terminating", "statement": "uhat[l].sign_changes on a strictly increasing integer grid terminates; it returns, strictly increasing, exactly one frequency per grid interval whose end values are nonzero with different sign bits, located at an index r in that interval where the sign bit differs between r and r+1, plus every grid point where the function is exactly zero, and nothing else.", "quantifier": "all functions on the integers (arbitrary sign patterns), all strictly increasing integer grids", "why_tests_cant": "All functions and grids; termination and the vectorised work-list (brackets finishing at different times) cannot be exhausted by tests.", "anchors": ["src/sparse_ir/_roots.py:find_all", "src/sparse_ir/_roots.py:_bisect_discr", "src/sparse_ir/poly.py:PiecewiseLegendreFT.sign_changes"]}
{"id": "C07", "title": "Continuous root search: sound and complete with respect to the grid, with a guaranteed error", "statement": "Root finding on an increasing grid returns, sorted, every grid point where the function vanishes and exactly one point per grid interval with a strict sign change; each of the latter lies in its interval and is within xeps = eps*max|grid| of a true root when the function is continuous.", "quantifier": "all functions, all increasing grids, all sign patterns", "why_tests_cant": "Quantifies over all continuous functions and all grids.", "anchors": ["src/sparse_ir/_roots.py:find_all", "src/sparse_ir/_roots.py:_bisect_cont"]}
{"id": "C08", "title": "Continuous bisection terminates in IEEE double precision", "statement": "With every operation rounded to nearest double, the root search terminates for every function on every increasing grid of doubles whose largest magnitude is not tiny (eps*max is a normal number); for grids so small that eps*max underflows to zero it never terminates.", "quantifier": "all functions, all grids of doubles (subnormals included), no overflow", "why_tests_cant": "Termination under rounding depends on all pairs of adjacent doubles; no test can enumerate them.", "anchors": ["src/sparse_ir/_roots.py:_bisect_cont", "src/sparse_ir/_roots.py:find_all"]}
{"id": "C09", "title": "Discrete extrema are local maxima of the magnitude strictly inside their bracket", "statement": "Each interior point returned by uhat[l].extrema lies strictly between grid points x[i] and x[i+2] of a secant sign change and is a local maximum of |f| with respect to both integer neighbours except possibly towards a bracket edge it touches; if |f| is unimodal on the bracket the point is its maximum. The outermost grid points are returned iff the magnitude decreases or the sign changes inwards.", "quantifier": "all functions on integers, all strictly increasing grids of length at least two", "why_tests_cant": "All functions, all bracket sizes; bisection branches depend on every value.", "anchors": ["src/sparse_ir/_roots.py:discrete_extrema", "src/sparse_ir/_roots.py:_bisect_discr_extremum"]}
{"id": "C10", "title": "Extrema order: exact condition", "statement": "The list of extrema is strictly increasing whenever no two consecutive secants change sign; without that, overlapping brackets can return unordered points, in which case extrema(positive_only=False) raises ValueError.", "quantifier": "all functions on integers and grids", "why_tests_cant": "Requires adversarial functions.", "anchors": ["src/sparse_ir/_roots.py:discrete_extrema", "src/sparse_ir/poly.py:_symmetrize_matsubara"]}
{"id": "C11", "title": "Symmetrised Matsubara points", "statement": "Extending non-negative points to both signs yields, for sorted non-negative input, a sorted list symmetric under negation with the same multiplicities, containing zero once iff the input starts with a zero, strictly increasing if the input is; unsorted or negative input raises ValueError; empty input stays empty.", "quantifier": "all integer lists", "why_tests_cant": "All lists of all lengths.", "anchors": ["src/sparse_ir/poly.py:_symmetrize_matsubara"]}
{"id": "C12", "title": "Default Matsubara sampling points: parity, order, symmetry, zero frequency, count warning", "statement": "default_matsubara_sampling_points ends on every input and returns integers of the statistics' parity, all non-negative when positive_only and otherwise symmetric under negation; they are strictly increasing if the basis has a spare function, or the statistics is bosonic, or the highest function has no two overlapping extremum brackets on the search grid (otherwise the fermionic fallback can return unordered points); with a spare function a result is always returned; when the basis has no spare function and the statistics is bosonic the zero frequency is always included; a warning is issued iff the number of points differs from the requested (parity-rounded, halved if positive_only) number.", "quantifier": "all basis functions (as functions on the integers), basis sizes, requested sizes, both statistics, both positive_only settings", "why_tests_cant": "All functions and sizes.", "anchors": ["src/sparse_ir/basis.py:_default_matsubara_sampling_points", "src/sparse_ir/poly.py:PiecewiseLegendreFT.extrema", "src/sparse_ir/poly.py:PiecewiseLegendreFT.sign_changes"]}
{"id": "C13", "title": "Fencing keeps the sampling points and their structure", "statement": "Fencing returns a strictly increasing superset of the given frequencies with the same parity, adds at most two (one if positive_only) points per threshold, and keeps non-negative input non-negative. Symmetric input stays symmetric under negation exactly when fewer than 20 or at least 40 points are given, or the shift is zero; between 20 and 39 points both added points are shifted in the same direction and the symmetry is lost.", "quantifier": "all frequency lists of any length", "why_tests_cant": "All list lengths around and beyond both thresholds.", "anchors": ["src/sparse_ir/basis.py:_fence_matsubara_sampling"]}
{"id": "C14", "title": "The default frequency grid is strictly increasing from 0 to 2^25", "statement": "The grid used by extrema and sign_changes by default consists of 369 strictly increasing integers starting with 0..64 and ending with 2^25, so every default search meets the preconditions of the root finders.", "quantifier": "the whole (finite) default grid; every default call", "why_tests_cant": "Tests only exercise particular functions; that precondition must hold for every default call.", "anchors": ["src/sparse_ir/poly.py:PiecewiseLegendreFT._DEFAULT_GRID"]}
{"id": "C15", "title": "Quadrature rule transformations keep nodes, distances and weights consistent", "statement": "For every rule whose stored distances are x - a and b - x, reseat, scale, join and piecewise give rules with the same property on the new interval; nodes stay ordered and inside the interval; weights sum to scaled totals.", "quantifier": "all rules, all target intervals, all factors, any number of pieces", "why_tests_cant": "All reals and any number of pieces (induction).", "anchors": ["src/sparse_ir/_gauss.py:Rule.reseat", "src/sparse_ir/_gauss.py:Rule.scale", "src/sparse_ir/_gauss.py:Rule.piecewise", "src/sparse_ir/_gauss.py:Rule.join"]}
{"id": "C16", "title": "Quadrature exactness survives reseating and piecewise composition", "statement": "If a rule integrates all polynomials up to degree d exactly on its interval, so does the reseated rule on the new interval, and the piecewise rule integrates every function that is a polynomial of degree at most d on each piece exactly over the whole interval.", "quantifier": "all rules, degrees, intervals, edge lists and piecewise polynomials", "why_tests_cant": "Universally quantified over polynomials and partitions.", "anchors": ["src/sparse_ir/_gauss.py:Rule.reseat", "src/sparse_ir/_gauss.py:Rule.piecewise", "src/sparse_ir/_gauss.py:Rule.join"]}
{"id": "C17", "title": "Join and piecewise reject gaps and unordered edges, and nothing else", "statement": "piecewise raises ValueError iff some consecutive edges are not strictly ascending; join raises ValueError iff consecutive rules do not abut; joining nothing gives an empty rule on [-1, 1].", "quantifier": "all edge lists and rule lists", "why_tests_cant": "All lists.", "anchors": ["src/sparse_ir/_gauss.py:Rule.piecewise", "src/sparse_ir/_gauss.py:Rule.join"]}
{"id": "C18", "title": "Three-term recurrence evaluation returns value and derivative", "statement": "Evaluating the recurrence returns the n-th monic polynomial, its exact derivative, the (n-1)-th polynomial and its derivative, for every choice of recurrence coefficients and every point.", "quantifier": "all n >= 1, all coefficient sequences, all x", "why_tests_cant": "All degrees and coefficients.", "anchors": ["src/sparse_ir/_gauss.py:_polyvalderiv"]}
{"id": "C19", "title": "Gauss-Legendre weights and exactness", "statement": "The rule returned by the Gauss construction has weights summing to b - a; if its nodes are the n distinct zeros of the monic Legendre polynomial, it integrates every polynomial of degree at most 2n-1 over [-1, 1] exactly and its weights are positive. For every n >= 1 the polynomial has n distinct zeros in (-1, 1), and the rule with these nodes is the only n-point rule with that exactness.", "quantifier": "all n >= 1, all polynomials up to degree 2n-1", "why_tests_cant": "All n and all polynomials.", "anchors": ["src/sparse_ir/_gauss.py:rule_from_recurrence", "src/sparse_ir/_gauss.py:_legendre_recurrence"]}
{"id": "C20", "title": "Newton refinement: an exact starting point makes the construction fail", "statement": "If the eigenvalue solver already returns nodes at which the polynomial vanishes exactly, every Newton step is zero, the convergence test never stops the loop, and the construction raises AttributeError from the malformed warning text; in particular legendre(1) always raises. It returns a rule iff some Newton step fails to halve. In exact arithmetic the Newton steps converge (each at least four times closer) from every start close enough to the zeros, so that legendre(n) then raises for every n: it returns only because of rounding.", "quantifier": "all n, all recurrences, all starting points", "why_tests_cant": "The loop behaviour depends on the whole sequence of Newton steps.", "anchors": ["src/sparse_ir/_gauss.py:rule_from_recurrence"]}
{"id": "C21", "title": "Kronrod constants form a nested symmetric rule exact to 1e-13", "statement": "The 31-point rule and its embedded 15-point rule have symmetric nodes and weights, positive weights, strictly increasing nodes inside (-1,1), nested at odd positions, and integrate every polynomial of degree at most 46 (resp. 28) with an error at most 1e-13 times the sum of its coefficients' magnitudes.", "quantifier": "all polynomials up to the stated degrees", "why_tests_cant": "All polynomials; a typo in one literal must be excluded.", "anchors": ["src/sparse_ir/_gauss.py:kronrod_31_15", "src/sparse_ir/_gauss.py:NestedRule"]}
{"id": "C22", "title": "Collocation matrix inverts evaluation", "statement": "For an exact n-point Gauss-Legendre rule, the collocation matrix is the two-sided inverse of the matrix of Legendre polynomial values at the nodes: interpolating node values returns a polynomial taking those values.", "quantifier": "all n >= 1", "why_tests_cant": "All n.", "anchors": ["src/sparse_ir/_gauss.py:legendre_collocation"]}
{"id": "C23", "title": "Segment lookup and domain of piecewise polynomials", "statement": "For strictly increasing knots, evaluation at any x in [xmin, xmax] uses a segment that contains x (the right one at interior knots, the last one at xmax) with local coordinate in [-1, 1]; outside it raises ValueError.", "quantifier": "all knot vectors, all x", "why_tests_cant": "All reals and knot counts.", "anchors": ["src/sparse_ir/poly.py:PiecewiseLegendrePoly._split", "src/sparse_ir/poly.py:PiecewiseLegendrePoly.__call__"]}
{"id": "C24", "title": "The three evaluation routes agree", "statement": "poly(x)[l], poly[l](x) and poly.value(l, x) are equal for all l and x, raise in the same cases (ValueError for points outside the interval, else IndexError for indices out of range; negative indices count from the end), and slicing commutes with differentiation and with evaluation.", "quantifier": "all polynomials, l, x, slices", "why_tests_cant": "All inputs.", "anchors": ["src/sparse_ir/poly.py:PiecewiseLegendrePoly.__call__", "src/sparse_ir/poly.py:PiecewiseLegendrePoly.value", "src/sparse_ir/poly.py:PiecewiseLegendrePoly.__getitem__"]}
{"id": "C25", "title": "deriv(n) is the n-th derivative", "statement": "At every interior point of a segment, poly.deriv(n) equals the n-th derivative of poly; the stored parity is multiplied by (-1)^n, consistently with the parity of the derivative.", "quantifier": "all polynomials, orders n, segments, interior points", "why_tests_cant": "All n, all coefficients, all points.", "anchors": ["src/sparse_ir/poly.py:PiecewiseLegendrePoly.deriv"]}
{"id": "C26", "title": "roots(): range, symmetry, completeness; double count at the midpoint", "statement": "roots() of a single polynomial returns points of [xmin, xmax]; for even or odd polynomials the result is symmetric about the midpoint, contains the midpoint exactly once if odd, and contains one point per strict sign change of the refined half grid on each side. For an even polynomial vanishing exactly at the midpoint, the midpoint is returned twice.", "quantifier": "all piecewise polynomials of declared parity +1, -1 or 0, all refinements", "why_tests_cant": "All polynomials.", "anchors": ["src/sparse_ir/poly.py:PiecewiseLegendrePoly.roots", "src/sparse_ir/poly.py:_refine_grid"]}
{"id": "C27", "title": "uhat is the Fourier transform of u", "statement": "For every reduced frequency n below the asymptotic threshold, uhat[l](n) equals the integral over [0, beta] of exp(i*pi*n*tau/beta) u[l](tau); for a bare PiecewiseLegendreFT it equals 1/sqrt(2) times the integral of exp(i*pi*n*(x+1)/2) p(x) over [-1, 1].", "quantifier": "all piecewise Legendre polynomials (any knots, order, coefficients), all integers n, all beta > 0", "why_tests_cant": "All integers n and all coefficients.", "anchors": ["src/sparse_ir/poly.py:_compute_unl_inner", "src/sparse_ir/poly.py:_phase_stable", "src/sparse_ir/poly.py:_shift_xmid", "src/sparse_ir/poly.py:_get_tnl", "src/sparse_ir/poly.py:_imag_power", "src/sparse_ir/basis.py:FiniteTempBasis.__init__"]}
{"id": "C28", "title": "Conjugation symmetry and real/imaginary parity of uhat", "statement": "uhat(-n) is the complex conjugate of uhat(n); for polynomials of definite parity, uhat is purely real or purely imaginary at all frequencies of the statistics' parity, and that is the part inspected by extrema and sign_changes.", "quantifier": "all polynomials of definite parity, all frequencies", "why_tests_cant": "All integers n and coefficients.", "anchors": ["src/sparse_ir/poly.py:PiecewiseLegendreFT._func_for_part", "src/sparse_ir/poly.py:_get_tnl", "src/sparse_ir/adapter.py:_get_unl_real"]}
{"id": "C29", "title": "High-frequency model", "statement": "The asymptotic model evaluates sum_m M[m]/(i*pi*n/2)^(m+1) for n != 0 and 0 for n = 0; for a polynomial on a single segment whose parity is (-1)^l it equals the exact Fourier transform at every nonzero frequency; it replaces the exact transform exactly when |n| >= n_asymp; slicing commutes with it.", "quantifier": "all moments, frequencies, polynomials on one segment", "why_tests_cant": "All n and coefficients.", "anchors": ["src/sparse_ir/poly.py:_PowerModel.giw", "src/sparse_ir/poly.py:_power_moments", "src/sparse_ir/poly.py:_derivs", "src/sparse_ir/poly.py:PiecewiseLegendreFT.__call__"]}
{"id": "C30", "title": "Fourier-transforming a derivative fails", "statement": "The derivative of a piecewise polynomial keeps the polynomial order of the original; constructing a PiecewiseLegendreFT from it and evaluating at a frequency raises ValueError whenever the original order exceeds one and the set of functions is non-empty, whereas it works for the original.", "quantifier": "all polynomials of order > 1, all orders of differentiation, all frequencies", "why_tests_cant": "All orders and shapes.", "anchors": ["src/sparse_ir/poly.py:PiecewiseLegendrePoly.__init__", "src/sparse_ir/poly.py:PiecewiseLegendrePoly.deriv", "src/sparse_ir/poly.py:_compute_unl_inner"]}
{"id": "C31", "title": "Overlap integration never loses or double counts an interval while refining", "statement": "At every refinement level the converged and pending intervals together partition the original integration domain; when overlap finishes without warning, its value is the sum of the embedded 15-point rule over a partition of the domain, and the error estimate the sum of the local differences; when it aborts with a warning the pending intervals contribute nothing. Every converged interval met the tolerance relative to a tiling of the whole domain; a result without warning for integrands that are polynomials of degree at most 29 between break points is the integral up to the precision of the tabulated rule; overlap returns for every integrand defined strictly between the break points, raises ValueError for break points outside the domain and TypeError for more than 2000 initial intervals; if the product with one polynomial of the set vanishes identically the result is zero for all of them, with a warning.", "quantifier": "all integrands, tolerances, knot sets, break points, refinement histories", "why_tests_cant": "All refinement histories.", "anchors": ["src/sparse_ir/poly.py:_compute_overlap", "src/sparse_ir/poly.py:PiecewiseLegendrePoly.overlap"]}
{"id": "C32", "title": "Inner product of piecewise polynomials", "statement": "The integral of the product of two functions on common knots equals the sum over segments and orders of the products of coefficients times 2/(2k+1); hence a set is orthonormal iff its coefficient columns are orthonormal in that weight.", "quantifier": "all polynomials and pairs of indices", "why_tests_cant": "All coefficients.", "anchors": ["src/sparse_ir/poly.py:PiecewiseLegendrePoly.__call__", "src/sparse_ir/sve.py:SamplingSVE.postprocess"]}
{"id": "C33", "title": "Logistic kernel equals its formula and never overflows", "statement": "For all x, y in [-1,1] and Lambda > 0 the logistic kernel equals exp(-Lambda*y*(x+1)/2)/(1+exp(-Lambda*y)), lies in (0, 1], and every exponential it forms has a non-positive argument; outside the square ValueError.", "quantifier": "all Lambda > 0, x, y, with or without supplied distances x_plus, x_minus", "why_tests_cant": "All reals.", "anchors": ["src/sparse_ir/kernel.py:LogisticKernel.__call__", "src/sparse_ir/kernel.py:LogisticKernel._compute", "src/sparse_ir/kernel.py:_compute_uv"]}
{"id": "C34", "title": "Regularised Bose kernel: value, sign and removable singularity", "statement": "For Lambda*|y| >= 1e-200 the kernel equals y*exp(-Lambda*y*(x+1)/2)/(1-exp(-Lambda*y)), i.e. minus the expression in its documentation; at y = 0 it equals 1/Lambda; below the threshold it deviates from the formula by at most 1e-200/Lambda; it is positive.", "quantifier": "all Lambda > 0, x, y in [-1,1]", "why_tests_cant": "All reals.", "anchors": ["src/sparse_ir/kernel.py:RegularizedBoseKernel._compute", "src/sparse_ir/kernel.py:RegularizedBoseKernel.__call__"]}
{"id": "C35", "title": "Kernels are centrosymmetric", "statement": "K(x, y) == K(-x, -y) for the logistic and the regularised Bose kernel everywhere on the square, as is_centrosymmetric claims.", "quantifier": "all Lambda > 0, x, y", "why_tests_cant": "All reals.", "anchors": ["src/sparse_ir/kernel.py:LogisticKernel.is_centrosymmetric", "src/sparse_ir/kernel.py:RegularizedBoseKernel.is_centrosymmetric"]}
{"id": "C36", "title": "Symmetrised kernels equal K(x,y) +- K(x,-y) in every branch", "statement": "get_symmetrized(sign) evaluated with distances x_plus = x, x_minus = 1 - x equals K(x,y) + sign*K(x,-y) on [0,1]x[0,1], including the branches that substitute a hyperbolic closed form; omitting x_plus raises TypeError.", "quantifier": "all Lambda > 0, x, y in [0,1], both signs, both kernels", "why_tests_cant": "All reals; branch boundaries.", "anchors": ["src/sparse_ir/kernel.py:ReducedKernel.__call__", "src/sparse_ir/kernel.py:_LogisticKernelOdd.__call__", "src/sparse_ir/kernel.py:_RegularizedBoseKernelOdd.__call__"]}
{"id": "C37", "title": "Weight functions give the bosonic kernel; which statistics strings are accepted", "statement": "For the logistic kernel the bosonic weight times the kernel equals exp(-Lambda*y*(x+1)/2)/(1-exp(-Lambda*y)) for y != 0; fermionic weight is one. A statistics string is accepted iff it is a substring of 'FB' (so '' and 'FB' are accepted and treated as bosonic); the regularised Bose kernel accepts exactly 'B'.", "quantifier": "all Lambda > 0, x, y != 0, all strings", "why_tests_cant": "All reals, all strings.", "anchors": ["src/sparse_ir/kernel.py:LogisticKernel.weight_func", "src/sparse_ir/kernel.py:AbstractKernel.weight_func", "src/sparse_ir/kernel.py:RegularizedBoseKernel.weight_func"]}
{"id": "C38", "title": "Discretisation segments are valid for every cutoff", "statement": "For every Lambda > 0 the hinted segments of both kernels on both axes are strictly increasing, start at -1, end at 1, contain 0 in the middle and are antisymmetric, so quadrature construction never rejects them; symmetrising yields exactly the non-negative half, and mirroring that half restores the full list.", "quantifier": "all Lambda > 0", "why_tests_cant": "All reals Lambda (and hence any number of segments).", "anchors": ["src/sparse_ir/kernel.py:_SVEHintsLogistic", "src/sparse_ir/kernel.py:_SVEHintsRegularizedBose", "src/sparse_ir/kernel.py:_SVEHintsReduced", "src/sparse_ir/kernel.py:_symm_segments"]}
{"id": "C39", "title": "Singular value truncation", "statement": "Truncation with tolerance rtol and limit lmax keeps, over all blocks together, at most lmax singular values; for blocks sorted in non-increasing order it keeps exactly those strictly larger than a common cutoff, i.e. no discarded value exceeds a kept one and equal values are kept or dropped together; invalid rtol or lmax raises ValueError.", "quantifier": "any number of blocks of any sizes, all rtol, all lmax", "why_tests_cant": "All lists, ties included.", "anchors": ["src/sparse_ir/sve.py:_truncate"]}
{"id": "C40", "title": "Partial SVE", "statement": "SVEResult.part(eps, max_size) returns a common prefix of u, s, v whose length is the number of singular values >= eps*s[0], limited by max_size when 0 <= max_size; for non-increasing s these are exactly the values above the threshold. A negative max_size drops that many values from the end of the full list, even those already cut by eps.", "quantifier": "all s, eps, max_size", "why_tests_cant": "All lists.", "anchors": ["src/sparse_ir/sve.py:SVEResult.part"]}
{"id": "C41", "title": "Gauge fixing", "statement": "After canonicalisation every left function with nonzero value at x=1 is positive there, and its product u_l(x)*v_l(y) is unchanged; a left function that vanishes at x=1 is divided by zero.", "quantifier": "all function pairs, all x, y", "why_tests_cant": "All data.", "anchors": ["src/sparse_ir/sve.py:_canonicalize"]}
{"id": "C42", "title": "Merging even and odd blocks reconstructs the full kernel", "statement": "Given singular expansions of the even and odd reduced kernels on [0,1]^2, the merged result has singular values in non-increasing order, functions with u_l(-x) = sign_l*u_l(x), the sign stored as parity, orthonormal on [-1,1], and, if the reduced expansions are within e of the even and odd parts of a centrosymmetric K on [0,1]^2 (e = 0: exact), sum_l s_l u_l(x) v_l(y) is within e of K(x,y) at all points of [-1,1]^2 off the reflected interior knots, and on all of [-1,1]^2 if K is continuous in each variable; for discontinuous K it can fail at a reflected knot.", "quantifier": "all reduced data, any number of functions, all x, y", "why_tests_cant": "All data.", "anchors": ["src/sparse_ir/sve.py:CentrosymmSVE.postprocess"]}
{"id": "C43", "title": "Sampling SVE reproduces the kernel at the quadrature nodes with orthonormal functions", "statement": "With an exact Gauss rule and an exact thin SVD, the functions built by SamplingSVE satisfy sum_l s_l u_l(x_i) v_l(y_j) = K(x_i, y_j) at all quadrature nodes and are orthonormal on their intervals.", "quantifier": "all kernels (as functions), all segmentations, all orders", "why_tests_cant": "All kernels and sizes.", "anchors": ["src/sparse_ir/sve.py:SamplingSVE.matrices", "src/sparse_ir/sve.py:SamplingSVE.postprocess"]}
{"id": "C44", "title": "Accuracy policy", "statement": "Working precision, safe epsilon and SVD strategy follow a fixed total decision table on (requested eps, working dtype, strategy, extended precision available): an explicit strategy is never overridden and never warns; a warning is issued iff no strategy was given and eps is below the safe value; in that case the accurate strategy is chosen.", "quantifier": "all eps (or None), dtypes, strategies, with and without the extended precision package", "why_tests_cant": "All real eps.", "anchors": ["src/sparse_ir/sve.py:_safe_eps", "src/sparse_ir/svd.py:compute"]}
{"id": "C45", "title": "Rescaling to physical variables preserves the expansion and orthonormality", "statement": "For every beta, wmax > 0: u_l(tau) = sqrt(2/beta) u_l^x(2 tau/beta - 1), v_l(w) = v_l^y(w/wmax)/sqrt(wmax), orthonormality carries over to [0,beta] and [-wmax,wmax], and sum_l s_l u_l(tau) v_l(w) equals wmax^(-ypower) times the unscaled expansion. For the logistic kernel (ypower 0) this is the kernel in physical variables; for ypower 1 it is wmax^(-2) times omega exp(-tau omega)/(1 - exp(-beta omega)).", "quantifier": "all SVE results, beta > 0, wmax > 0, tau, omega", "why_tests_cant": "All reals.", "anchors": ["src/sparse_ir/basis.py:FiniteTempBasis.__init__"]}
{"id": "C46", "title": "Basis accuracy bounds every discarded significance", "statement": "accuracy is between 0 and 1; when truncated it equals the first discarded singular value relative to the first and bounds all discarded ones; otherwise it equals the last significance; significance starts at 1 and is non-increasing.", "quantifier": "all positive non-increasing singular value lists, all truncations", "why_tests_cant": "All lists.", "anchors": ["src/sparse_ir/basis.py:FiniteTempBasis.__init__", "src/sparse_ir/basis.py:FiniteTempBasis.significance", "src/sparse_ir/basis.py:FiniteTempBasis.accuracy"]}
{"id": "C47", "title": "Truncating a basis: size of basis[:n]", "statement": "basis[:n] with 0 < n keeps the first min(n, N) functions where N is the number of singular values above the accuracy of the stored SVE (not the current size): so basis[:n] has size n for n <= min(basis.size, N), but slicing an eps-truncated basis with a larger bound (or no bound) enlarges it; non-prefix slices and integers raise ValueError.", "quantifier": "all singular values, eps choices and n, sequences of slicings", "why_tests_cant": "All lists and histories of slicing.", "anchors": ["src/sparse_ir/basis.py:FiniteTempBasis.__getitem__", "src/sparse_ir/basis.py:_slice_to_size", "src/sparse_ir/sve.py:SVEResult.part"]}
{"id": "C48", "title": "rescale keeps Lambda and keeps the size exactly when the basis eps is not below the SVE accuracy", "statement": "rescale(b) keeps beta*wmax = Lambda, the kernel and the SVE; the new size is min(size, N) with N the number of singular values above the stored SVE accuracy, hence equal to the old size iff size <= N; a basis built with eps below that accuracy shrinks.", "quantifier": "all bases and new temperatures, all sequences of rescalings", "why_tests_cant": "All lists and histories.", "anchors": ["src/sparse_ir/basis.py:FiniteTempBasis.rescale", "src/sparse_ir/sve.py:SVEResult.part"]}
{"id": "C49", "title": "rescale never trips the Lambda consistency check in double precision", "statement": "In IEEE double arithmetic, Lambda/new_beta*new_beta passes the relative tolerance 4e-16 used to compare the kernel's Lambda with the basis' for every new_beta, barring overflow and underflow.", "quantifier": "all doubles Lambda, new_beta in the normal range", "why_tests_cant": "2^128 pairs of doubles.", "anchors": ["src/sparse_ir/basis.py:FiniteTempBasis.rescale", "src/sparse_ir/basis.py:_get_kernel"]}
{"id": "C50", "title": "Default tau and omega sampling points lie strictly inside and are increasing", "statement": "The default sampling points in tau (omega) are strictly increasing and lie inside [0, beta] ([-wmax, wmax]); in the extrapolating branch they are strictly inside the open interval whenever the maxima are; a warning is issued iff their number differs from the requested one.", "quantifier": "all bases (root lists), beta, wmax", "why_tests_cant": "All reals and lists.", "anchors": ["src/sparse_ir/basis.py:_default_sampling_points", "src/sparse_ir/basis.py:FiniteTempBasis.default_tau_sampling_points", "src/sparse_ir/basis.py:FiniteTempBasis.default_omega_sampling_points"]}
{"id": "C51", "title": "Constructor validation of a finite-temperature basis", "statement": "Construction raises ValueError for beta not positive, wmax negative, a statistics string that is not a substring of 'BF', or a kernel whose Lambda deviates from beta*wmax; '' and 'BF' pass the string test and fail later with KeyError; a supplied SVE computed for a different Lambda is accepted.", "quantifier": "all statistics strings, beta, wmax, kernels, SVE results", "why_tests_cant": "All strings and reals.", "anchors": ["src/sparse_ir/basis.py:FiniteTempBasis.__init__", "src/sparse_ir/basis.py:_get_kernel"]}
{"id": "C52", "title": "Fermionic and bosonic bases of a pair share SVE, functions and tau sampling", "statement": "finite_temp_bases and FiniteTempBasisSet give two bases with the same u, s, v, sizes, accuracies and default tau points, differing only in statistics and frequency parity; both use one SVE.", "quantifier": "all beta, wmax, eps, SVE results", "why_tests_cant": "All inputs.", "anchors": ["src/sparse_ir/basis.py:finite_temp_bases", "src/sparse_ir/basis_set.py:FiniteTempBasisSet"]}
{"id": "C53", "title": "Evaluation along any axis of an array of any rank", "statement": "evaluate/fit with axis=k applied to an array of any rank applies the matrix along exactly that axis (negative axes count from the end) and leaves all other axes in place; a length mismatch or an invalid axis raises.", "quantifier": "all ranks, shapes, axes", "why_tests_cant": "Unbounded ranks and shapes.", "anchors": ["src/sparse_ir/sampling.py:_matop_along_axis", "src/sparse_ir/sampling.py:DecomposedMatrix.matmul", "src/sparse_ir/sampling.py:DecomposedMatrix.lstsq"]}
{"id": "C54", "title": "Default axis", "statement": "Omitting axis equals axis=0 for vectors and equals axis = ndim-2 for rank >= 2; it coincides with the documented last axis only for vectors.", "quantifier": "all ranks and shapes", "why_tests_cant": "Unbounded ranks.", "anchors": ["src/sparse_ir/sampling.py:_matop_along_axis", "src/sparse_ir/sampling.py:AbstractSampling.evaluate"]}
{"id": "C55", "title": "fit is the least-squares solution", "statement": "Given a valid SVD of the sampling matrix, fit returns the coefficient vector minimising the 2-norm of the residual over all coefficient vectors, and among the minimisers the one of least norm; exactly zero singular values are dropped; if the matrix has full column rank, fit(evaluate(g)) == g for all g and fit recovers any function in the span.", "quantifier": "all matrices with an SVD, all data vectors, real or complex", "why_tests_cant": "All matrices and vectors.", "anchors": ["src/sparse_ir/sampling.py:DecomposedMatrix.__init__", "src/sparse_ir/sampling.py:DecomposedMatrix._lstsq"]}
{"id": "C56", "title": "positive_only fit is the least-squares solution over real coefficients", "statement": "With positive_only, fit returns the real coefficient vector minimising the complex residual norm over all real vectors, provided the matrix row of zero frequency is real when zero is sampled; for real coefficients fit(evaluate(g)) == g whenever the stacked real matrix has full column rank.", "quantifier": "all complex matrices, all data, with or without zero frequency", "why_tests_cant": "All matrices and vectors.", "anchors": ["src/sparse_ir/sampling.py:_split_complex", "src/sparse_ir/sampling.py:SplitDecomposedMatrix"]}
{"id": "C57", "title": "Explicit sampling points: order of the result", "statement": "TauSampling.evaluate(al, points=p)[n] is the value at p[n]. MatsubaraSampling.evaluate(al, points=p)[n] is the value at the n-th smallest element of p, so it is the value at p[n] for every basis iff p is sorted; correspondingly fit(points=p) reads the data in sorted order.", "quantifier": "all point lists, all bases, all coefficients", "why_tests_cant": "All lists.", "anchors": ["src/sparse_ir/sampling.py:MatsubaraSampling.__init__", "src/sparse_ir/sampling.py:AbstractSampling.evaluate", "src/sparse_ir/sampling.py:TauSampling._for_sampling_points"]}
{"id": "C58", "title": "Conditioning warning", "statement": "fit issues a conditioning warning iff the basis claims to be well conditioned and the ratio of the largest to the smallest nonzero singular value is not at most 1e8; an augmented basis claims this iff its only augmentation is the Matsubara constant and the inner basis does; a DLR never does.", "quantifier": "all singular value lists, bases, augmentation lists", "why_tests_cant": "All lists.", "anchors": ["src/sparse_ir/sampling.py:AbstractSampling.fit", "src/sparse_ir/augment.py:AugmentedBasis.is_well_conditioned", "src/sparse_ir/dlr.py:DiscreteLehmannRepresentation.is_well_conditioned"]}
{"id": "C59", "title": "Augmentations: hat is the Fourier transform, functions are normalised", "statement": "For even n, TauConst.hat(n) and TauLinear.hat(n) equal the integral over [0, beta] of exp(i*pi*n*tau/beta) times the function, for arrays n and a numpy that has np.complex (without it TauConst.hat raises AttributeError, and TauLinear.hat of a zero-dimensional n raises TypeError); both functions have unit norm and are orthogonal; odd n raises ValueError.", "quantifier": "all beta > 0, all integers n", "why_tests_cant": "All integers and reals.", "anchors": ["src/sparse_ir/augment.py:TauConst", "src/sparse_ir/augment.py:TauLinear"]}
{"id": "C60", "title": "Augmentation derivatives", "statement": "deriv(n) of TauConst and TauLinear is, on arrays of floats, the n-th derivative of the function for every n; on integer arrays the first derivative of TauLinear is truncated to an integer.", "quantifier": "all n, tau, beta", "why_tests_cant": "All n.", "anchors": ["src/sparse_ir/augment.py:TauConst.deriv", "src/sparse_ir/augment.py:TauLinear.deriv"]}
{"id": "C61", "title": "Augmented basis layout", "statement": "An augmented basis with k augmentations has size k + inner size; u(x)[l], uhat(n)[l] and u[l](x) are the l-th augmentation for l < k and the (l-k)-th inner function otherwise (a negative l counts from the end of the augmentations); truncation basis[:n] keeps all augmentations and the first n-k inner functions, and raises if n <= k.", "quantifier": "all bases, augmentation lists, l, n", "why_tests_cant": "All lists.", "anchors": ["src/sparse_ir/augment.py:_AugmentedFunction", "src/sparse_ir/augment.py:AugmentedBasis.__getitem__", "src/sparse_ir/augment.py:AugmentedBasis.size"]}
{"id": "C62", "title": "Fermionic bases reject bosonic augmentations", "statement": "Constructing an augmented basis from classes fails with ValueError iff the list contains TauConst or TauLinear and the inner statistics is not 'B'; instances are taken as given, so an already constructed TauConst is accepted by a fermionic basis, and evaluating the resulting frequency functions at an odd frequency then raises.", "quantifier": "all augmentation lists and statistics", "why_tests_cant": "All lists.", "anchors": ["src/sparse_ir/augment.py:_augmentation_factory", "src/sparse_ir/augment.py:_check_bosonic_statistics"]}
{"id": "C63", "title": "Broken accessors of augmented bases", "statement": "For every augmented basis: reading statistics raises TypeError; the upper end of the domain of u reads as the lower end; differentiating u raises for every number of augmentations.", "quantifier": "all augmented bases", "why_tests_cant": "Holds for all instances, not for one.", "anchors": ["src/sparse_ir/augment.py:AugmentedBasis.statistics", "src/sparse_ir/augment.py:AugmentedTauFunction.xmax", "src/sparse_ir/augment.py:AugmentedTauFunction.deriv"]}
{"id": "C64", "title": "DLR time functions have the closed form of a pole", "statement": "For poles not all zero, the DLR function of pole w at tau in [0,beta] equals -exp(-tau*w)/(1+exp(-beta*w)), independently of the other poles; outside [0,beta] RuntimeError. If all poles are zero evaluation is undefined (division by zero).", "quantifier": "all pole lists, beta > 0, tau", "why_tests_cant": "All reals.", "anchors": ["src/sparse_ir/dlr.py:TauPoles.__call__"]}
{"id": "C65", "title": "DLR frequency functions are the Fourier transforms of the time functions", "statement": "For every pole w and every n of the statistics' parity (excluding w = 0 with n = 0), the DLR frequency function equals the integral over [0,beta] of exp(i*pi*n*tau/beta) times the time function: 1/(iv - w) for fermions, tanh(beta*w/2)/(iv - w) for bosons.", "quantifier": "all poles, beta > 0, n", "why_tests_cant": "All integers and reals.", "anchors": ["src/sparse_ir/dlr.py:MatsubaraPoles.__call__", "src/sparse_ir/dlr.py:TauPoles.__call__"]}
{"id": "C66", "title": "DLR to IR transfer preserves the function", "statement": "to_IR(g) gives IR coefficients whose time function differs from the DLR expansion by at most the kernel truncation error times sum |g_p|, and equals it when the singular expansion is exact; from_IR(to_IR(g)) == g when the transfer matrix has full column rank.", "quantifier": "all pole sets, coefficients, tau", "why_tests_cant": "All reals.", "anchors": ["src/sparse_ir/dlr.py:DiscreteLehmannRepresentation.__init__", "src/sparse_ir/dlr.py:DiscreteLehmannRepresentation.to_IR", "src/sparse_ir/dlr.py:DiscreteLehmannRepresentation.from_IR"]}
{"id": "C67", "title": "Adapter: sampling indices pick one maximum per sign segment", "statement": "The legacy extremum search splits a value list at strict sign changes and returns, strictly increasing, one index per segment at which the magnitude is maximal within the segment (the first such).", "quantifier": "all non-empty value lists", "why_tests_cant": "All lists.", "anchors": ["src/sparse_ir/adapter.py:_sampling_points"]}
{"id": "C68", "title": "Adapter: full frequency interval", "statement": "For fermions the result is closed under n -> -n-1, for bosons under n -> -n and contains 0 exactly once; both are strictly increasing for strictly increasing non-negative input and contain the input. (An empty list with bosonic statistics raises IndexError.)", "quantifier": "all strictly increasing non-negative index lists", "why_tests_cant": "All lists.", "anchors": ["src/sparse_ir/adapter.py:_full_interval"]}
{"id": "C69", "title": "Adapter: bisection brackets", "statement": "For every function the legacy root search ends and returns, strictly increasing and inside (-1,1), exactly one number for every pair of mesh neighbours of strictly opposite signs: the centre of an interval between the two, no longer than 1e-14, across which the function changes sign (so within 5e-15 of a zero if the function is continuous). Zeros exactly on mesh points are missed, contrary to the docstring. The sampling points in x and y are strictly interlaced with the roots (with the end points added) and those in y are symmetric under negation.", "quantifier": "all functions", "why_tests_cant": "All functions.", "anchors": ["src/sparse_ir/adapter.py:_find_roots", "src/sparse_ir/adapter.py:sampling_points_x", "src/sparse_ir/adapter.py:sampling_points_y"]}
{"id": "C70", "title": "Adapter: basis functions, derivatives and singular values are those of the expansion", "statement": "An adapter basis accepts the statistics F and B only (KeyError otherwise); ulx, vly and sl give the functions and singular values of the singular value expansion for every l below dim() and every point of [-1,1] (ValueError outside), d_ulx and d_vly their derivatives of every order in the interior of the segments; dim() is the number of singular values not below the accuracy times the first; load picks the kernel by statistics and warns exactly if asked to.", "quantifier": "all expansions, statistics, l, points, orders", "why_tests_cant": "All reals and orders.", "anchors": ["src/sparse_ir/adapter.py:load", "src/sparse_ir/adapter.py:Basis"]}
{"id": "C71", "title": "Adapter: compute_unl gives Fourier integrals", "statement": "compute_unl accepts every integer array; the result has the shape (number of indices, number of functions) with axes of length one removed, and the entry for index n and function l is 1/sqrt(2) times the integral of exp(i*pi*m*(x+1)/2) u_l(x) over [-1,1] with m = 2n+1 for fermions and 2n for bosons, as long as |m| < 40 Lambda (the asymptotic model of the basis function is used beyond).", "quantifier": "all adapter bases, integer arrays, l", "why_tests_cant": "All integers.", "anchors": ["src/sparse_ir/adapter.py:Basis.compute_unl"]}
{"id": "C72", "title": "Adapter: Matsubara sampling points", "statement": "For a basis whose functions alternate in parity sampling_points_matsubara succeeds for every l < dim(): the result is strictly increasing, symmetric under reversal of the frequency, and its non-negative members are, per piece of constant sign of the (purely real or purely imaginary) transform on the search indices, the first index at which its magnitude is largest, with 0 added for bosons. l >= dim() raises RuntimeError. The search indices are strictly increasing, contain 0..n-1 and 10^8 and nothing beyond.", "quantifier": "all adapter bases with alternating parity, all l", "why_tests_cant": "All bases and l.", "anchors": ["src/sparse_ir/adapter.py:sampling_points_matsubara", "src/sparse_ir/adapter.py:_get_mats_sampling", "src/sparse_ir/adapter.py:_get_unl_real", "src/sparse_ir/adapter.py:_start_guesses"]}
{"id": "C73", "title": "SVE: the result of compute is a valid expansion", "statement": "Whenever compute returns, whatever kernel, accuracy, cutoff, limit, order, work type and strategy: the singular values are positive, non-increasing and at most n_sv in number; there are equally many left and right functions, piecewise polynomials of the requested order on the hinted segments covering [-1,1]; the stored accuracy is the effective one; every left function is positive at 1; with the centrosymmetric strategy every function has the parity stored with it, the same for both functions of a pair. A non-empty result meets everything the basis classes assume of an expansion.", "quantifier": "all kernels, arguments and strategies", "why_tests_cant": "All real kernels parameters and all decompositions.", "anchors": ["src/sparse_ir/sve.py:compute", "src/sparse_ir/sve.py:SamplingSVE", "src/sparse_ir/sve.py:CentrosymmSVE"]}
{"id": "C74", "title": "SVE: error of the computed expansion", "statement": "If the Legendre rules are exact and the decompositions of the weighted kernel matrices are exact, the squared error of the expansion, summed with the quadrature weights over all nodes (and their reflections, for the centrosymmetric strategy), equals the sum of the squares of the dropped singular values; with a cutoff and no limit it is at most their number times (cutoff times the largest singular value)^2; the left and the right functions are orthonormal on [-1,1].", "quantifier": "all kernels, arguments, strategies and exact decompositions", "why_tests_cant": "All real matrices.", "anchors": ["src/sparse_ir/sve.py:compute", "src/sparse_ir/sve.py:SamplingSVE", "src/sparse_ir/sve.py:CentrosymmSVE", "src/sparse_ir/sve.py:_truncate"]}
{"id": "C75", "title": "SVE: which arguments compute accepts", "statement": "With a documented svd strategy (or none), n_sv None or a non-negative integer and a cutoff in [0,1] (or none), compute ends without an exception; without a cutoff, twice the epsilon of the work type is used; a negative or non-integral n_sv or an invalid cutoff raises ValueError, n_sv = inf OverflowError, an undocumented svd strategy ValueError unless the work type is double-double, where it is ignored.", "quantifier": "all kernels and arguments", "why_tests_cant": "All argument combinations.", "anchors": ["src/sparse_ir/sve.py:compute", "src/sparse_ir/sve.py:_safe_epsilon", "src/sparse_ir/sve.py:_truncate", "src/sparse_ir/svd.py:compute"]}
{"id": "C76", "title": "Basis: default sampling frequencies", "statement": "default_matsubara_sampling_points(npoints, positive_only) of a basis looks at function l_r of the full expansion, l_r the smallest number of the right parity (even for fermions, odd for bosons) not below npoints (default: the size; of an augmented basis: its own size). If the expansion has it, and it has the parity (-1)^l_r and is marked so, the call ends without exception: the frequencies have the parity of the statistics, are strictly increasing, non-negative or symmetric as asked, at each non-negative one the transform vanishes or changes sign to the next frequency, every zero on the search grid is among them, and between two neighbouring grid points with opposite signs there is exactly one. Otherwise they are the extrema of the highest function (0 added for bosons). The warning is given exactly if the number differs from l_r (half of it, rounded up, for positive ones). If the function is not marked as even or odd, as in an expansion made with the sampling strategy, the call raises ValueError. The values searched are the Fourier integrals of the scaled functions for |n| < 40 Lambda.", "quantifier": "all bases, numbers of points, search grids", "why_tests_cant": "All bases and point numbers.", "anchors": ["src/sparse_ir/basis.py:FiniteTempBasis.default_matsubara_sampling_points", "src/sparse_ir/basis.py:_default_matsubara_sampling_points", "src/sparse_ir/augment.py:AugmentedBasis.default_matsubara_sampling_points", "src/sparse_ir/dlr.py:DiscreteLehmannRepresentation.default_matsubara_sampling_points", "src/sparse_ir/poly.py:PiecewiseLegendreFT.sign_changes", "src/sparse_ir/poly.py:PiecewiseLegendreFT.extrema"]}
{"id": "C77", "title": "Sampling objects with default points", "statement": "TauSampling(basis) and MatsubaraSampling(basis, positive_only) use the default points of the basis and equal the objects made with these points given explicitly; the times are increasing and in [0,beta], the frequencies have the right parity. Errors of the search for points are passed on. For an augmented basis this holds with the constant and linear functions in time and, in frequency, for bosons; TauSampling of a basis augmented by the constant in frequency raises ValueError (its values are NaN), MatsubaraSampling of a fermionic basis augmented by functions of time raises ValueError. For a DLR basis the points are those of its basis; MatsubaraSampling raises ValueError if a pole is zero and the frequency zero is sampled. With positive_only and no points IndexError is raised.", "quantifier": "all bases, augmented bases and DLR bases", "why_tests_cant": "All bases.", "anchors": ["src/sparse_ir/sampling.py:TauSampling.__init__", "src/sparse_ir/sampling.py:MatsubaraSampling.__init__"]}
{"id": "C78", "title": "Basis sets", "statement": "FiniteTempBasisSet(beta, wmax, eps, sve_result) raises what the pair of bases or the search for frequencies raises, and otherwise holds a fermionic and a bosonic basis with the same expansion, accuracy, beta and wmax as given (lambda_ = beta*wmax), time sampling for both at the same default times with identical matrices, and frequency sampling at odd frequencies for fermions and even ones for bosons, symmetric around zero. With two functions of alternating parity to spare it is always created.", "quantifier": "all arguments", "why_tests_cant": "All arguments and expansions.", "anchors": ["src/sparse_ir/basis_set.py:FiniteTempBasisSet"]}
{"id": "C79", "title": "Kernels: hints and properties", "statement": "For every Lambda: the hinted number of Gauss points is 10 or 16 and not smaller for higher accuracy; the hinted number of singular values is at least 26, does not decrease with Lambda and is halved (rounded up) for the symmetrized kernels; uhat of a basis made with a kernel is the Fourier integral of u for all frequencies below conv_radius; symmetrized kernels have the ypower and conv_radius of the kernel and cannot be symmetrized again (RuntimeError).", "quantifier": "all kernels, accuracies and Lambda", "why_tests_cant": "All real parameters.", "anchors": ["src/sparse_ir/kernel.py:_SVEHintsLogistic", "src/sparse_ir/kernel.py:_SVEHintsRegularizedBose", "src/sparse_ir/kernel.py:_SVEHintsReduced", "src/sparse_ir/kernel.py:LogisticKernel.conv_radius", "src/sparse_ir/kernel.py:RegularizedBoseKernel.conv_radius", "src/sparse_ir/kernel.py:ReducedKernel"]}
{"id": "C80", "title": "Matrices in decomposed form", "statement": "DecomposedMatrix(a, svd_result) is created for every two-dimensional array (and triple of matching shapes) and raises ValueError otherwise; its u, s, vH multiply to what the given or computed triple multiplies to, with exactly the vanishing singular values dropped; made from a thin SVD they are one with positive singular values; lstsq is the least-squares solution of least norm along any axis, matmul and @ are the product with a; cond raises IndexError exactly for the zero matrix. SplitDecomposedMatrix needs complex u and real vT in addition; for the split form of a complex matrix u*s@vH is that matrix except that the imaginary part of the row of frequency zero is set to zero, vH is real, and lstsq is the real least-squares solution.", "quantifier": "all arrays, decompositions and data", "why_tests_cant": "All complex matrices of all shapes.", "anchors": ["src/sparse_ir/sampling.py:DecomposedMatrix", "src/sparse_ir/sampling.py:SplitDecomposedMatrix", "src/sparse_ir/sampling.py:_split_complex", "src/sparse_ir/_util.py:check_svd_result"]}
{"id": "C81", "title": "SVD: factors of a matrix", "statement": "svd.compute(a, n_sv_hint, strategy) of a real matrix of any shape, tall or wide, with any documented strategy and any set of installed libraries, returns U, s, V with A == (U*s) @ V.T and orthonormal columns, as accurate as the library called for this matrix; which library that is depends on strategy and dtype only, and its rank limit is the smallest of both dimensions and the hint. For complex matrices the full SVD gives A == (U*s) @ V.conj().T and not the documented product. The only exception is ValueError, for an unknown strategy (outside double-double precision) or an invalid argument reported by LAPACK; warnings are given exactly if the Jacobi method is missing, met denormalized numbers or did not converge.", "quantifier": "all matrices, hints, strategies, work types and library results", "why_tests_cant": "All matrices and all sets of libraries.", "anchors": ["src/sparse_ir/svd.py:compute", "src/sparse_ir/svd.py:_idsvd", "src/sparse_ir/svd.py:_dgejsv", "src/sparse_ir/svd.py:_ddouble_svd_trunc"]}
{"id": "C82", "title": "Times and frequencies describe the same functions", "statement": "For every basis, basis augmented by the constant and linear functions (of the same beta, at even frequencies) and DLR basis, u can be evaluated on [0,beta] and uhat at every frequency of the right parity, and uhat_l(n) is the integral of exp(i pi n tau/beta) u_l(tau) over [0,beta] (for |n| < 40 Lambda; for a DLR basis at all frequencies, except n = 0 with a pole at 0). Hence, for an array of functions G given by coefficients along any axis, TauSampling.evaluate gives G(tau_i) and MatsubaraSampling.evaluate the Fourier integrals of G; if the matrix of the time sampling has full rank, fitting values G(tau_i) and evaluating in frequency gives the Fourier integrals of G; if the matrix of the frequency sampling has full rank, fitting the Fourier integrals of G and evaluating in time gives G(tau_i), also with positive_only if the coefficients are real.", "quantifier": "all bases, points, axes and arrays of functions", "why_tests_cant": "All functions, points and array shapes.", "anchors": ["src/sparse_ir/sampling.py:TauSampling", "src/sparse_ir/sampling.py:MatsubaraSampling", "src/sparse_ir/basis.py:FiniteTempBasis.u", "src/sparse_ir/basis.py:FiniteTempBasis.uhat", "src/sparse_ir/augment.py:AugmentedBasis", "src/sparse_ir/dlr.py:DiscreteLehmannRepresentation"]}
{"id": "C83", "title": "SVE: singular value equations", "statement": "The functions of the expansion returned by sve.compute satisfy the equations of singular functions, integral of K(x,y) v_l(y) dy = s_l u_l(x) and integral of K(x,y) u_l(x) dx = s_l v_l(y), at every node of the composite Gauss rules on the hinted segments, with the integrals replaced by these rules; they are orthonormal for these rules as well as on [-1,1]. Cut off after its first N functions, for any N, the expansion misses of the weighted sum of squares of the kernel exactly what exceeds the sum of the squares of the first N singular values. All this holds for a complete or a truncated SVD of the weighted matrices.", "quantifier": "all kernels, accuracies, cutoffs, sizes, quadrature orders and strategies", "why_tests_cant": "All nodes, cuts and kernels.", "anchors": ["src/sparse_ir/sve.py:compute", "src/sparse_ir/sve.py:SamplingSVE", "src/sparse_ir/sve.py:CentrosymmSVE", "src/sparse_ir/kernel.py:matrix_from_gauss"]}
{"id": "C84", "title": "SVE: best approximation", "statement": "No sum of N products of a function of x and a function of y is closer to the kernel, in the weighted sum of squares over the nodes, than the expansion returned by sve.compute cut off after its first N functions, for each N up to its length. With a cutoff below one and no limit n_sv, the expansion of a positive kernel has at least one function.", "quantifier": "all kernels, accuracies, cutoffs, sizes, strategies and competing sums of products", "why_tests_cant": "All functions a_l(x), b_l(y).", "anchors": ["src/sparse_ir/sve.py:compute", "src/sparse_ir/sve.py:SamplingSVE", "src/sparse_ir/sve.py:CentrosymmSVE", "src/sparse_ir/sve.py:_truncate"]}
{"id": "C85", "title": "Basis: singular value expansion of the kernel in tau and omega", "statement": "FiniteTempBasis(statistics, beta, wmax, eps, max_size=..., kernel=...) is the basis made from sve.compute(kernel, eps) and returns for all valid arguments. In the physical variables the sum of s_l u_l(tau) v_l(omega) expands exp(-tau omega)/(1 + exp(-beta omega)) if no kernel is given, and for any other kernel K(2 tau/beta - 1, omega/wmax) divided by wmax^ypower: u_l are orthonormal on [0,beta], v_l on [-wmax,wmax], they satisfy the equations of singular functions at the nodes of the composite Gauss rules moved to these intervals, the sum of squares missed is that of the kernel less the sum of s_l^2, and no sum of as many products is closer. u_l(beta) > 0, and u_l and v_l are both even or both odd about beta/2 and 0. With the regularised bosonic kernel this is omega exp(-tau omega)/(1 - exp(-beta omega)) divided by wmax^2.", "quantifier": "all statistics, temperatures, cutoffs, accuracies, sizes, kernels and ways of computing the expansion", "why_tests_cant": "All bases, nodes and competing sums.", "anchors": ["src/sparse_ir/basis.py:FiniteTempBasis.__init__", "src/sparse_ir/basis.py:_get_kernel", "src/sparse_ir/sve.py:compute", "src/sparse_ir/kernel.py:LogisticKernel", "src/sparse_ir/kernel.py:RegularizedBoseKernel", "src/sparse_ir/kernel.py:AbstractKernel.ypower"]}
{"id": "C86", "title": "SVE and basis: stable under errors of the decomposition", "statement": "If the library's decomposition of a weighted kernel matrix has orthonormal vectors and ordered values but differs from the matrix by d in the root of the sum of squares (through rounding or because it stops at n_sv values), the expansion returned by sve.compute cut off after N functions differs from the kernel, in the weighted sum of squares over the nodes, by at most d plus the root of the squares of the values left out, and by at most 2 d more than any other sum of N products. With the centrosymmetric strategy d is the root of the sum of squares of the errors of the two decompositions. The same holds for the basis made from the expansion in tau and omega, with d multiplied by sqrt(beta wmax/2) wmax^(-ypower). A decomposition limited to the N largest values is right up to the root of the sum of squares of the others.", "quantifier": "all kernels, decompositions and their errors, accuracies, cutoffs, sizes, strategies and competing sums of products", "why_tests_cant": "All matrices, perturbations and functions.", "anchors": ["src/sparse_ir/sve.py:compute", "src/sparse_ir/sve.py:SamplingSVE", "src/sparse_ir/sve.py:CentrosymmSVE", "src/sparse_ir/svd.py:compute", "src/sparse_ir/basis.py:FiniteTempBasis.__init__"]}
{"id": "C87", "title": "SVE: with the installed SVD libraries", "statement": "sve.compute(kernel, eps, ...) calls svd.compute once for each matrix it decomposes: the weighted even and odd parts of the kernel, or the whole kernel without symmetrisation, on the composite Gauss rule of the requested or hinted order, with the work type and strategy chosen from eps and the installed libraries and with the number of values the kernel hints at. If what svd.compute returns for these matrices is what it documents up to an error in each entry, the expansion, cut off after any number of functions, and the basis made from it in tau and omega are as close to the kernel as those errors and the values left out allow, and up to twice the errors closest possible. The accuracy warning is given exactly if no strategy is requested and the requested accuracy is below that of the work type; the warning about the missing Jacobi method exactly if that method is needed and not installed; no other warning is possible without that method. Exceptions are those of C75, unless the Jacobi method rejects its arguments.", "quantifier": "all kernels, accuracies, sets of installed libraries and their results, errors, strategies and competing sums", "why_tests_cant": "All sets of libraries, matrices and errors.", "anchors": ["src/sparse_ir/sve.py:compute", "src/sparse_ir/sve.py:_safe_eps", "src/sparse_ir/svd.py:compute", "src/sparse_ir/sve.py:SamplingSVE", "src/sparse_ir/sve.py:CentrosymmSVE", "src/sparse_ir/basis.py:FiniteTempBasis.__init__"]}
{"id": "C88", "title": "Kernel: values in rounded arithmetic", "statement": "If every addition, multiplication and division has relative error u (with gradual underflow) and the elementary functions have relative error e, the value of a kernel at (x, y) is off by at most (9 u + 3 e) times the largest value at this y: 1 for the logistic kernel, |y| + 1/Lambda for the regularised bosonic one; for all cutoffs up to 1e90, so that nothing is lost at x close to -1 or 1 or for large Lambda. If x_plus and x_minus are given and are the distances of a point X from the ends up to relative error r, the value is that at X, which need not be representable, up to (r + 8 u + 3 e) times the largest value. Even and odd kernels are off by at most (2 r + 3 s + 20 u + 5 e) times that value, where s is the error of x, whether or not the closed form of the odd kernel is used. In doubles with elementary functions good to one unit in the last place, values of the logistic kernel have absolute error below 2^-49. Exceptions do not depend on the arithmetic.", "quantifier": "all points, distances, cutoffs up to 1e90, roundings and elementary functions with these errors", "why_tests_cant": "All real points and all roundings; the bound must hold uniformly in the cutoff.", "anchors": ["src/sparse_ir/kernel.py:LogisticKernel.__call__", "src/sparse_ir/kernel.py:LogisticKernel._compute", "src/sparse_ir/kernel.py:RegularizedBoseKernel._compute", "src/sparse_ir/kernel.py:_compute_uv", "src/sparse_ir/kernel.py:ReducedKernel.__call__", "src/sparse_ir/kernel.py:_LogisticKernelOdd.__call__", "src/sparse_ir/kernel.py:_RegularizedBoseKernelOdd.__call__"]}
{"id": "C89", "title": "Quadrature rules and kernel matrices in rounded arithmetic", "statement": "If every operation has relative error u (with gradual underflow), the elementary functions have relative error e, and the reference Gauss rule has errors s in its nodes and relative errors w in its weights and r in its distances from the ends, the composite rule made by Rule.piecewise has relative errors w + 5 u in its weights and r + 6 u in its distances from both ends, however short the segments are and however close the nodes lie to the ends; its nodes have errors (s + 7 u) times the larger end of their segment. The matrix sve.compute decomposes, sqrt(w_i) K(x_i, y_j) sqrt(w_j), has entries off by at most (r + 3 w + 4 k (s + 7 u) + 30 u + 3 e) sqrt(w_i w_j) times the largest value of the kernel at y_j, its even and odd versions by (2 r + 3 s + 5 w + 7 k (s + 7 u) + 85 u + 5 e) times the same, for all cutoffs up to 1e90; k is 2 divided by the distance of the nodes of the reference rule from -1 and 1 if 0 is not inside a segment, as for the segments the kernels hint at. Exceptions depend on the segments only.", "quantifier": "all reference rules and their errors, segments, kernels, cutoffs up to 1e90, roundings and elementary functions with these errors", "why_tests_cant": "All roundings, rules, segments and cutoffs; the bound must be uniform in the cutoff.", "anchors": ["src/sparse_ir/_gauss.py:Rule.reseat", "src/sparse_ir/_gauss.py:Rule.join", "src/sparse_ir/_gauss.py:Rule.piecewise", "src/sparse_ir/kernel.py:matrix_from_gauss", "src/sparse_ir/sve.py:SamplingSVE"]}
{"id": "C90", "title": "SVE and basis: from kernel matrices computed in rounded arithmetic", "statement": "If every operation has relative error u, the elementary functions relative error e and the reference Gauss rule errors s, w and r as in C89, the kernel matrices that sve.compute decomposes on the segments hinted at by LogisticKernel or RegularizedBoseKernel, with 1e-50 <= Lambda <= 1e16, differ from the exact ones by at most E = 2 (r + 3 w + 4 k (s + 7 u) + 30 u + 3 e) m in the root of the sum of squares of all entries, whatever the number of segments; m is 1 or 1 + 1/Lambda and k is as in C89. The even and odd matrices differ by at most (2 r + 3 s + 5 w + 7 k (s + 7 u) + 85 u + 5 e) m. If the library decomposes the rounded matrices up to d, the expansion returned by sve.compute, cut off after any number of functions, misses the kernel by at most d + E and the values left out, and is closest possible up to 2 (d + E); the same holds for the basis made from it in tau and omega, in units of sqrt(beta wmax/2) wmax^(-ypower).", "quantifier": "all kernels of the library with cutoffs up to 1e16, reference rules and their errors, roundings, elementary functions and decompositions with these errors, sizes and competing sums", "why_tests_cant": "All cutoffs, roundings and decompositions; the bound must not grow with the number of segments.", "anchors": ["src/sparse_ir/sve.py:compute", "src/sparse_ir/sve.py:SamplingSVE", "src/sparse_ir/sve.py:CentrosymmSVE", "src/sparse_ir/kernel.py:matrix_from_gauss", "src/sparse_ir/kernel.py:_SVEHintsLogistic.segments_x", "src/sparse_ir/kernel.py:_SVEHintsLogistic.segments_y", "src/sparse_ir/_gauss.py:Rule.piecewise", "src/sparse_ir/basis.py:FiniteTempBasis.__init__"]}
{"id": "C91", "title": "SVE and basis: from decompositions with nearly orthonormal vectors", "statement": "SVD routines return vectors that are orthonormal up to rounding only. If the k left and the k right vectors of the library's decomposition of a weighted kernel matrix are orthonormal up to a and c (root of the sum of squares of the entries of U^T U - 1 and V^T V - 1), k is not larger than the matrix, the values are ordered with largest s, and the product differs from the matrix by d, the expansion returned by sve.compute cut off after any number of functions misses the kernel by at most d + 2 s (a + c + a c) and the values left out, and up to twice this error no other sum of as many products is closer. The functions of the expansion are orthonormal up to a and c: their inner products are off by at most that. With the centrosymmetric strategy the errors of the two decompositions add in squares. The same holds of the basis made from the expansion in tau and omega, and if the matrices are computed in rounded arithmetic, with d increased by the error bounds of C90. Nothing is lost if the vectors are exactly orthonormal.", "quantifier": "all kernels, decompositions and their errors, accuracies, cutoffs, sizes, strategies and competing sums of products", "why_tests_cant": "All matrices and all nearly orthonormal sets of vectors.", "anchors": ["src/sparse_ir/sve.py:compute", "src/sparse_ir/sve.py:SamplingSVE", "src/sparse_ir/sve.py:CentrosymmSVE", "src/sparse_ir/svd.py:compute", "src/sparse_ir/basis.py:FiniteTempBasis.__init__"]}
{"id": "C92", "title": "Piecewise polynomials: rounding error of values", "statement": "In rounded arithmetic, every operation having relative error u and absolute error eta, calling a piecewise polynomial at a point of segment [a, b] returns, with either form of numpy's Clenshaw recurrence, a value that differs from that of the mathematical function by at most 60 n^2 (6 + 5 max(|a|, |b|) / (b - a)) u times sqrt(2 / (b - a)) times the sum of the absolute values of the n coefficients of that segment (plus eta-terms), as long as that number of units of rounding is below 1 / u. No bound on the polynomials' degrees, the knots or the number of segments is needed, and the points may lie on the knots. value(l, x), p[l](x), entry l of p(x) and entries of array calls agree to the last bit, and rounding does not change which calls raise exceptions. The stored segment lengths may be exact or computed from the knots in the same arithmetic.", "quantifier": "all piecewise polynomials (orders, knots, coefficients), points, indices, arrays and rounding functions", "why_tests_cant": "Errors depend on all coefficients and on where a point lies in a segment.", "anchors": ["src/sparse_ir/poly.py:PiecewiseLegendrePoly.__call__", "src/sparse_ir/poly.py:PiecewiseLegendrePoly.value", "src/sparse_ir/poly.py:PiecewiseLegendrePoly._split", "src/sparse_ir/poly.py:PiecewiseLegendrePoly.__init__"]}
{"id": "C93", "title": "Sampling: evaluate and fit in rounded arithmetic", "statement": "Let A be the matrix of n computed values of basis functions at m sampling points. In rounded arithmetic, where inner products of up to N terms have error gam times the sum of the absolute values of their terms and other operations relative error u (in doubles 6 N 2^-53 and 9 2^-53, whatever the order of summation, with or without fused operations, and with both of numpy's divisions), evaluate returns along any axis the value of each expansion up to gam times the sum of the absolute values of its terms. If the library's decomposition of A has singular values in [lo, hi], vectors orthonormal up to a and c and a product that is off by d, fit returns for each slice x coefficients that differ from any g by at most (c + 2 (hi/lo) a + 2 d/lo) |g| + 2 |A g - x|/lo + 4 (gam + u) sqrt(n) |x|/lo; for the least-squares solution g the residual |A g - x| counts with weight d/lo only. fit(evaluate(g)) differs from g by at most (c + 2 (hi/lo) a + 2 d/lo + 7 (gam + u) sqrt(n) (2 hi/lo + d/lo)) |g|, plus underflow terms. The same holds with positive_only among real coefficients. The conditioning warning is issued exactly if the basis is well-conditioned and the condition number exceeds 1e8, up to one rounding; rounding changes neither the shapes nor the exceptions. If the computed values are off by e from those of the true basis functions, evaluate is off by e times the sum of absolute coefficients and fit by 2 e sqrt(m n) |g|/lo more.", "quantifier": "all matrices, decompositions and their errors, arrays, axes, points, summation orders and roundings with these errors", "why_tests_cant": "All arrays, shapes, axes, matrices and orders in which a library may add.", "anchors": ["src/sparse_ir/sampling.py:AbstractSampling.evaluate", "src/sparse_ir/sampling.py:AbstractSampling.fit", "src/sparse_ir/sampling.py:DecomposedMatrix.matmul", "src/sparse_ir/sampling.py:DecomposedMatrix.lstsq", "src/sparse_ir/sampling.py:DecomposedMatrix._lstsq", "src/sparse_ir/sampling.py:SplitDecomposedMatrix.lstsq", "src/sparse_ir/sampling.py:SplitDecomposedMatrix._lstsq", "src/sparse_ir/sampling.py:DecomposedMatrix.cond", "src/sparse_ir/sampling.py:_matop_along_axis"]}
{"id": "C94", "title": "Bases: attributes after any sequence of operations", "statement": "For every object made from a FiniteTempBasis by a sequence of slicing, rescale, AugmentedBasis and DiscreteLehmannRepresentation: beta is that of the last rescale (or of the first basis), lambda_ == beta*wmax and agrees with kernel.lambda_ to within 4e-16 (exactly after rescale); wmax is unchanged without rescale; shape == (size,), size > 0, and u(tau) and uhat(n) have one row per function; statistics is that of the first basis (an augmented basis raises TypeError); significance has one number in (0, 1] per function (for augmented bases none for the augmentations, contrary to the documentation); accuracy is in (0, 1]; kernel and sve_result are those of the first basis; is_well_conditioned is True for a basis, for an augmented basis iff the only augmentation is MatsubaraConst, and False for a DLR.", "quantifier": "all bases the constructor accepts, all sequences of operations with all their arguments (bounds, temperatures, augmentations, poles), all times and frequencies", "why_tests_cant": "sequences of operations are unbounded and their arguments range over reals; tests read attributes of a few freshly constructed objects", "anchors": ["src/sparse_ir/abstract.py:AbstractBasis", "src/sparse_ir/basis.py:FiniteTempBasis", "src/sparse_ir/augment.py:AugmentedBasis", "src/sparse_ir/dlr.py:DiscreteLehmannRepresentation"]}
{"id": "C95", "title": "SVE: coefficients of singular functions in rounded arithmetic", "statement": "sve.compute turns each singular vector into Legendre coefficients on each segment by a collocation matrix. If every operation has relative error u (with gradual underflow), the nodes and weights of the reference rule of n points are off by s and, relatively, w, and inner products of n terms by g times the sum of the absolute values of the terms, then the computed coefficient of degree k on a segment differs from that of the exact rule by at most (2 k + 1) (n^2 (6 u + 2 s) + 2 w + 13 u + g) times the norm of the part of the vector belonging to that segment (plus underflow terms), whatever the length of the segment and the number of segments. The function made from the coefficients is off by at most n^2 times that number times sqrt(2/L) on a segment of length L, everywhere on the segment, and calling it adds the errors of C92. Legendre polynomials up to degree n - 1 computed with numpy's recurrence at a rounded node are off by at most n^2 (7 u + 2 s). Inner products may be summed in any order, with or without fused operations: then g = 2 n u.", "quantifier": "all vectors, segments, reference rules and their errors, orders, degrees, points, summation orders and roundings", "why_tests_cant": "All roundings, vectors and segments; the bound must be uniform in the number and the length of segments.", "anchors": ["src/sparse_ir/sve.py:SamplingSVE.postprocess", "src/sparse_ir/_gauss.py:legendre_collocation", "src/sparse_ir/poly.py:PiecewiseLegendrePoly.__init__"]}
{"id": "C96", "title": "SVE: the whole computation in rounded arithmetic", "statement": "Let every operation of sve.compute be rounded (rules, kernel matrices, collocation, segment lengths, sign convention, merging of even and odd parts, truncation, conversion to the result type), with relative error u, elementary functions, reference rule and inner products with the errors of C88, C89 and C95, and let the library's decompositions have the errors of C91. Then, for the kernels of the library with 1e-50 <= Lambda <= 1e16, the functions of the returned expansion are orthonormal up to the lack of orthogonality of the vectors and four times the error of the coefficients, and the expansion, cut off after any number of functions, is as close to the kernel as the sum of all errors (matrix, decomposition, values, coefficients, orthogonality) and the values left out allow, and up to twice this error no sum of as many products is closer; with and without symmetrisation. The values kept are exactly those above the rounded product of cutoff and largest value, of which no more than n_sv are left. If rules, matrices and decompositions exist, sve.compute does not raise.", "quantifier": "all kernels of the library with cutoffs up to 1e16, reference rules, roundings, summation orders, decompositions and their errors, accuracies, cutoffs, sizes, strategies and competing sums", "why_tests_cant": "All roundings and decompositions; the errors of all steps must be added up for every cutoff and size.", "anchors": ["src/sparse_ir/sve.py:compute", "src/sparse_ir/sve.py:SamplingSVE", "src/sparse_ir/sve.py:CentrosymmSVE", "src/sparse_ir/sve.py:_canonicalize", "src/sparse_ir/sve.py:_truncate", "src/sparse_ir/_gauss.py:legendre_collocation", "src/sparse_ir/poly.py:PiecewiseLegendrePoly.__init__"]}
{"id": "C97", "title": "Fourier transforms of basis polynomials in rounded arithmetic", "statement": "Below the asymptotic threshold, each number returned by a PiecewiseLegendreFT on [-1, 1] (uhat of a basis) differs from the true Fourier integral of the polynomial with the stored knots and coefficients, divided by sqrt(2), by at most sum over segments of sqrt(length) * ((2 S + 40) |n| r u + d) * sum of |coefficients|, up to underflow, where S is the number of segments, u the unit of rounding, r the distance of the far end of the segment from the nearest of -1, 0, 1, and d the error of the library's Bessel functions, cosines and products. In particular the phase does not lose digits on segments close to the ends of the interval. From the threshold on the value of the high-frequency model is returned. The call succeeds exactly when all frequencies have the declared parity.", "quantifier": "all knots in [-1, 1] with stored segment lengths rounded, all coefficients, all integer frequencies, all roundings, summation orders and libraries with given errors", "why_tests_cant": "A test sees some polynomials and frequencies; the loss of digits depends on the frequency and on the position of the segment.", "anchors": ["src/sparse_ir/poly.py:PiecewiseLegendreFT.__call__", "src/sparse_ir/poly.py:_compute_unl_inner", "src/sparse_ir/poly.py:_phase_stable", "src/sparse_ir/poly.py:_shift_xmid", "src/sparse_ir/poly.py:_get_tnl"]}
{"id": "C98", "title": "Bases in rounded arithmetic", "statement": "FiniteTempBasis(statistics, beta, wmax, eps, sve_result=r) with every operation rounded (relative error u, gradual underflow): the singular values are sqrt(beta/2*wmax)*wmax**(-ypower) times those of r up to 6 u and the error of the power function; accuracy is right up to one rounding; a singular value is kept if it is above eps times the first and dropped if below, where one rounding of that product decides, and never more than max_size are kept. u(tau) returns sqrt(2/beta) times the functions of r at a point within 3.2 u (x + 1) of x = 2 tau/beta - 1, up to 240 n^2 (6 + 5 (x + 1)/length) u, in the right segment, for every tau between the ends, although scaled knots may coincide; v(w) likewise; in doubles the ends are exactly 0, beta, -wmax and wmax. uhat(n) below the threshold 40 Lambda is the Fourier integral of that function over [0, beta] up to the error of C97 and three more roundings. The constructor succeeds whenever each segment is longer than 2e6 u times the distance of its far end from x = -1 (or that distance times beta/2 is below 1e-9/(2 u)); otherwise it may raise ValueError for a valid expansion.", "quantifier": "all expansions whose segment lengths are rounded differences of the knots, all beta, wmax, eps, max_size, kernels, times, real frequencies, Matsubara frequencies, roundings and libraries with given errors", "why_tests_cant": "Errors depend on beta, wmax, the segment and the point; a test sees a few bases at moderate temperatures.", "anchors": ["src/sparse_ir/basis.py:FiniteTempBasis.__init__", "src/sparse_ir/basis.py:_get_kernel", "src/sparse_ir/sve.py:SVEResult.part", "src/sparse_ir/poly.py:PiecewiseLegendrePoly.__init__", "src/sparse_ir/poly.py:PiecewiseLegendrePoly.__call__"]}
{"id": "C99", "title": "Bases computed from scratch in rounded arithmetic", "statement": "FiniteTempBasis(statistics, beta, wmax, eps) without sve_result builds the same basis as with the result of sve.compute(kernel, eps). With every operation of both rounded, the polynomials it stores make a basis b0 in exact arithmetic, of the same size, such that: the functions u and v of b0 are orthonormal on [0, beta] and [-wmax, wmax] up to the errors of the library's decompositions and of the Legendre coefficients; for every size not larger than that of b0, cutting b0 there approximates the kernel in tau and omega, on the quadrature grid, as well as any sum of as many products of functions, up to beta/2*wmax (times a power of wmax) times the errors of the rule, kernel, decompositions and coefficients; the returned singular values are those of b0 up to 6 u and the error of the power function; u(tau) and v(omega) return the values of the functions of b0 at a point within 1.6 u (3.2 u) of the distance from the origin, up to the error of C98; and uhat(n) below the threshold returns the Fourier integrals of the functions u of b0 over [0, beta] up to the error of C98.", "quantifier": "all kernels of the library with cutoffs up to 1e16, beta, wmax, eps, max_size, options of sve.compute, reference rules, decompositions and their errors, roundings, times, real and Matsubara frequencies", "why_tests_cant": "The errors of the whole chain (rule, kernel, decomposition, coefficients, scaling, evaluation) must be added up for every temperature, cutoff and size.", "anchors": ["src/sparse_ir/basis.py:FiniteTempBasis.__init__", "src/sparse_ir/sve.py:compute", "src/sparse_ir/basis.py:_get_kernel"]}
{"id": "C100", "title": "Sampling on computed bases: from times to frequencies and back in rounded arithmetic", "statement": "Let a basis be constructed, its sampling matrices computed and decomposed, and data fitted and evaluated, all in rounded arithmetic. TauSampling(basis, pts) raises ValueError exactly if some point is outside the interval of u, MatsubaraSampling exactly (without positive_only) if some frequency has the wrong parity. evaluate of coefficients g returns, along any axis of an array of any rank, the values of the function sum g_l u_l at times within 3.2 u of the sampling times relative to the right end of the segment, or its Fourier integrals over [0, beta] at the sampling frequencies, up to rho times the errors of the inner products plus sqrt(L) times the error e of the values of the basis functions, times the norm of g; for frequencies rho = sqrt(beta (1 + L a)), where a is the deviation of the functions u from orthonormality. TauSampling.fit followed by MatsubaraSampling.evaluate returns the Fourier integrals of any function sum g_l u_l up to rho times the error of the fit, which is the distance of the data from the function's values times the inverse of the smallest singular value plus rounding times the condition number; likewise in the other direction, and with positive_only=True for real coefficients. Without rounding, sampling asks the basis for the same values as in exact arithmetic.", "quantifier": "all bases built in rounded arithmetic, sampling times and frequencies below the threshold, data arrays of all shapes and axes, coefficients, roundings, libraries and decompositions with given errors", "why_tests_cant": "The errors of basis functions, matrices, decompositions and fits add up for every basis, set of points and data; tests compare a few round trips with a tolerance.", "anchors": ["src/sparse_ir/sampling.py:TauSampling", "src/sparse_ir/sampling.py:MatsubaraSampling", "src/sparse_ir/sampling.py:DecomposedMatrix", "src/sparse_ir/sampling.py:SplitDecomposedMatrix", "src/sparse_ir/basis.py:FiniteTempBasis"]}
{"id": "C101", "title": "Slicing and rescaling in rounded arithmetic", "statement": "With every operation of the constructor rounded: basis[:n] is a basis of the same beta, wmax, statistics, kernel and expansion, and its u, s, v and uhat return, number by number, the first n entries of those of the basis; its size is the smaller of n and the number of singular values that reach the tolerance of the expansion. rescale(new_beta) keeps statistics, kernel and expansion, sets beta to new_beta and wmax to the rounded Lambda / new_beta, never increases the size, raises ZeroDivisionError for zero and ValueError for negative new_beta, and in doubles never fails at the comparison of Lambda. A basis is determined by its setting and size, so that after any sequence of slices and rescalings it equals any other that was reached with the same last scale and size: nothing drifts, and lambda_ stays within 4e-16 (1 + 5 u) of Lambda of the kernel. significance starts at 1, does not increase, lies between 0 and 1, and is the ratio of the singular values of the expansion up to 4 u. The fermionic and the bosonic basis of finite_temp_bases, and of a FiniteTempBasisSet, share u, s, v, accuracy, kernel and expansion, and exist together. Rescaling to the beta a basis has may change wmax by one unit in the last place, and rescaling to some positive beta can fail.", "quantifier": "all bases built in rounded arithmetic, slices, temperatures, histories of slices and rescalings, roundings, expansions and power functions", "why_tests_cant": "Histories are unbounded, and equality of every number after them is about all temperatures and sizes.", "anchors": ["src/sparse_ir/basis.py:FiniteTempBasis.__getitem__", "src/sparse_ir/basis.py:FiniteTempBasis.rescale", "src/sparse_ir/basis.py:FiniteTempBasis.significance", "src/sparse_ir/basis.py:finite_temp_bases", "src/sparse_ir/basis_set.py:FiniteTempBasisSet"]}
{"id": "C102", "title": "Default sampling points in rounded arithmetic", "statement": "In doubles, default_tau_sampling_points and default_omega_sampling_points return for every basis and every npoints >= 0: the search always ends. On [-1, 1] the points are doubles in increasing order, exactly symmetric about 0 if the function they come from has a declared parity (with 0 among them if it is odd). They include a point for each change of sign of the computed values between neighbouring knots (on the half that is searched, for functions not declared odd). Each that is a root is within one machine epsilon of a place where the polynomial it comes from, as stored, is smaller than the error of its evaluation or changes sign across a knot, or is the mirror image of such a point or the centre of an odd function. The polynomial is number npoints of the expansion, or the computed derivative of its last one, whose coefficients represent the true derivative up to a given error. The warning is given exactly if the number of points is not the requested one. Moved to tau they are in increasing order and never outside the interval where u can be called, so that TauSampling accepts them; moved to omega they are within the interval of v and stay exactly symmetric.", "quantifier": "all bases built in doubles on expansions whose knots are doubles, all npoints, both versions of the summation of Legendre series in numpy, all sign bits of computed zeros", "why_tests_cant": "Termination of the bisection and the location of every point must hold for all coefficients, including those for which computed values are noise near a root; tests look at a few kernels.", "anchors": ["src/sparse_ir/basis.py:FiniteTempBasis.default_tau_sampling_points", "src/sparse_ir/basis.py:FiniteTempBasis.default_omega_sampling_points", "src/sparse_ir/basis.py:_default_sampling_points", "src/sparse_ir/poly.py:PiecewiseLegendrePoly.roots", "src/sparse_ir/poly.py:PiecewiseLegendrePoly.deriv", "src/sparse_ir/poly.py:_refine_grid", "src/sparse_ir/_roots.py:find_all"]}
{"id": "C103", "title": "Default Matsubara sampling points in rounded arithmetic", "statement": "For a basis built in rounded arithmetic, default_matsubara_sampling_points searches computed values of uhat, which are called with whole arrays of frequencies; the number for one frequency may depend on the others in the call. The search always ends. The points are frequencies of the right parity, not negative with positive_only and symmetric otherwise. If there is a spare function with a declared parity, they increase strictly, each that is not negative is one at which a zero is returned or between which and the next frequency the returned numbers change sign, no zero on the search grid is missed, and between neighbours on the grid whose numbers have opposite signs there is exactly one point. Otherwise the extrema of the last function are used: ends of the grid where the magnitude falls away or the sign changes and one maximum of the computed magnitude per turn on the grid, plus frequency 0 for bosons. A warning is issued iff the number of points is not the expected one, and a function without parity is a ValueError. Every number searched is within an explicit distance of the coordinate of the Fourier integral of the stored polynomial (or the high-frequency model beyond its threshold). So at every point, or the next frequency, the true value is within that distance of 0 or the true function changes sign; true sign changes between grid neighbours with values beyond that distance are found exactly once; computed maxima are true maxima up to that distance. MatsubaraSampling(basis) at these points is never refused, except with an IndexError if positive_only leaves no point.", "quantifier": "all bases built in rounded arithmetic, statistics, npoints, search grids, values of positive_only, libraries and roundings, sign bits of computed zeros, high-frequency models", "why_tests_cant": "The claims are about every pattern of rounding errors in the values that are searched, including a value that differs between calls; tests look at a few kernels.", "anchors": ["src/sparse_ir/basis.py:FiniteTempBasis.default_matsubara_sampling_points", "src/sparse_ir/basis.py:_default_matsubara_sampling_points", "src/sparse_ir/poly.py:PiecewiseLegendreFT.sign_changes", "src/sparse_ir/poly.py:PiecewiseLegendreFT.extrema", "src/sparse_ir/_roots.py:find_all", "src/sparse_ir/_roots.py:discrete_extrema", "src/sparse_ir/sampling.py:MatsubaraSampling"]}
{"id": "C104", "title": "High-frequency model of Fourier transforms in rounded arithmetic", "statement": "From its threshold on (n_asymp; 40 Lambda for the uhat of a basis), a Fourier transform returns the value of a series in 1/(i pi n/2), whose moments it makes from the derivatives of the polynomials at x = 1, the m-th derivative being computed from the (m-1)-th. With every operation rounded, the moments exist whenever a parity of frequencies is declared (otherwise KeyError) and each differs from that made of the true m-th derivative by at most an explicit bound, in which a derivative can multiply earlier errors by 2 n^2 divided by the length of the last segment; the value of the series at n != 0 differs from the true series by at most the moments' errors weighted by powers of 2/(pi |n|), plus 11 (m+1) u relative to each term; at n = 0 it is 0. A call of the transform returns these values for all frequencies from the threshold on, also after slicing. For a function with the parity of its index this is the Fourier integral over [-1, 1], up to those errors and to the jumps of the function and its derivatives at inner knots. For a basis it holds of uhat and uhat_full, with the coefficients stored there.", "quantifier": "all sets of polynomials with right end 1 and a last segment that is not too short, orders, coefficients, frequencies, thresholds, slices, roundings and values of pi with given errors", "why_tests_cant": "Derivatives of high order amplify errors by the square of the order and the inverse length of the segment each time; the bound must hold for all coefficients and frequencies.", "anchors": ["src/sparse_ir/poly.py:PiecewiseLegendreFT.__call__", "src/sparse_ir/poly.py:_PowerModel", "src/sparse_ir/poly.py:_derivs", "src/sparse_ir/poly.py:_power_moments", "src/sparse_ir/poly.py:_power_model", "src/sparse_ir/poly.py:PiecewiseLegendrePoly.deriv", "src/sparse_ir/basis.py:FiniteTempBasis.uhat"]}
{"id": "C105", "title": "Discrete Lehmann representation in rounded arithmetic", "statement": "With every operation rounded: for poles that are not all zero, calling u of a DLR at times in [0, beta] succeeds, and each value is that of the time function of the pole at some time within 3 u beta of the given one, up to 12 u plus three times the error of the exponential function; at the given time itself the error is larger by 3 beta |pole| u. Times outside raise RuntimeError. Each value of uhat is the Fourier integral of the time function with relative error at most 23 u plus twice the error of tanh, however close or far the pole is; a pole at zero meeting frequency zero gives NaN. The entries of the transfer matrix differ from -s v by the errors of the stored singular values and of the computed values of v and one rounding. to_IR along any axis returns coefficients whose expansion in the basis is the same function of time as the expansion in the poles, up to the truncation of the kernel at the poles, the errors of that matrix and the error of the product. from_IR is least squares up to the errors of the decomposition and of rounding, and from_IR(to_IR(g)) returns g up to an explicit error. Other kernels and an empty list of poles raise ValueError. Without rounding these are the functions of the exact model.", "quantifier": "all poles, inverse temperatures, times, frequencies of the right parity, bases, arrays and axes, orders of summation, libraries and roundings with given errors", "why_tests_cant": "Rounding errors in 2 tau/beta - 1 and in the complex division could be amplified for some pole or frequency; tests look at a few of each.", "anchors": ["src/sparse_ir/dlr.py:DiscreteLehmannRepresentation.__init__", "src/sparse_ir/dlr.py:DiscreteLehmannRepresentation.from_IR", "src/sparse_ir/dlr.py:DiscreteLehmannRepresentation.to_IR", "src/sparse_ir/dlr.py:TauPoles.__call__", "src/sparse_ir/dlr.py:MatsubaraPoles.__call__"]}
{"id": "C106", "title": "Augmentations and augmented bases in rounded arithmetic", "statement": "With every operation rounded, TauConst and TauLinear give in [0, beta] the values of the orthonormal constant and linear function up to 9 u sqrt(3/beta), where sqrt(3/beta) is the largest value they take; their derivatives of positive order have relative error at most 5 u, and hat gives their Fourier integrals at every even frequency with relative error at most 10 u, zeros being exact. Times outside and odd frequencies raise ValueError as in exact arithmetic, and MatsubaraConst is not affected. The rows of u and uhat of an augmented basis are those of the augmentations followed by those of the basis, and u and uhat can be called exactly where the basis and all augmentations are defined (otherwise ValueError).", "quantifier": "all inverse temperatures (1e-100 to 1e100 in doubles), times, even frequencies (up to 1e100 in absolute value), orders of derivative, lists of augmentations, bases built in rounded arithmetic", "why_tests_cant": "The bounds are for every temperature, time and frequency; a test samples a few, and compares doubles with doubles.", "anchors": ["src/sparse_ir/augment.py:TauConst", "src/sparse_ir/augment.py:TauLinear", "src/sparse_ir/augment.py:MatsubaraConst", "src/sparse_ir/augment.py:AugmentedBasis.u", "src/sparse_ir/augment.py:AugmentedBasis.uhat", "src/sparse_ir/augment.py:_AugmentedFunction.__call__"]}
{"id": "C107", "title": "Overlap integrals in double precision", "statement": "In double precision, whatever the order in which np.sum adds, overlap divides the domain without gaps or overlaps: halving an interval between doubles never leaves it, and after every level the converged and pending intervals, all with double ends, tile the domain along the knots and break points; a warning is issued exactly if intervals are pending. The value is the sum over the converged intervals of the doubles that the 15-point rule produces there (computed polynomial times integrand at the computed nodes times computed weight), and the error estimate that of the differences of the two rules, up to a relative error of a few units of rounding of the sum of absolute values. Without a warning, each interval passed the test of the tolerance relative to a tiling of the whole domain, up to rounding. Without rounding this is the computation of C31.", "quantifier": "all sets of polynomials with double knots, integrands and numbers of components, tolerances, break points, limits, orders of summation", "why_tests_cant": "Inner points of intervals, nodes, weights, sums and the convergence test are all rounded; that no interval is lost or counted twice must hold for every refinement history.", "anchors": ["src/sparse_ir/poly.py:PiecewiseLegendrePoly.overlap", "src/sparse_ir/poly.py:_compute_overlap", "src/sparse_ir/_gauss.py:NestedRule.reseat", "src/sparse_ir/_gauss.py:kronrod_31_15"]}
