"""Status and note of each property in MANIFEST.json (see gen_manifest.py)."""
NOTES = {
    "C01": ("proved", ""),
    "C02": ("proved", ""),
    "C03": ("proved", ""),
    "C05": ("proved", "thread isolation is refuted; see DESIGN.md findings"),
    "C06": ("proved", ""),
    "C07": ("proved", "exact real arithmetic"),
    "C08": ("proved", "IEEE double arithmetic on bracket ends; termination for all functions is refuted for underflowing grids"),
    "C09": ("proved", ""),
    "C10": ("proved", "ordering in general is refuted with a witness"),
    "C11": ("proved", ""),
    "C12": ("proved", "basis functions enter as arbitrary functions on the integers; ordering in the fermionic fallback is refuted in general"),
    "C13": ("proved", "symmetry is characterised exactly; general preservation is refuted"),
    "C14": ("proved", "holds for every pow2 exact at integers and accurate to a relative 2^-40 elsewhere"),
    "C15": ("proved", ""),
    "C16": ("proved", "exact real arithmetic"),
    "C17": ("proved", "join of no rules and piecewise with fewer than two edges give the empty rule"),
    "C18": ("proved", "exact real arithmetic"),
    "C19": ("proved", "exact real arithmetic; that the eigenvalue start leads to the zeros is a hypothesis, met by some run for every order"),
    "C20": ("proved", "the eigenvalue solver and Newton corrections are arbitrary"),
    "C21": ("proved", "exact decimals and every double rounding of them"),
    "C22": ("proved", ""),
    "C23": ("proved", "exact real arithmetic"),
    "C24": ("proved", "exact real arithmetic"),
    "C25": ("proved", "exact real arithmetic; derivatives at interior knots are those of the segment to the right"),
    "C26": ("proved", "an even polynomial with a root in the centre returns it twice; see DESIGN.md findings"),
    "C31": ("proved", "exact real arithmetic; the integrand is an arbitrary function that may raise; C31_integral_refuted shows that with a warning the value can be far from the integral"),
    "C32": ("proved", "exact real arithmetic"),
    "C27": ("proved", "exact real arithmetic; frequencies below the threshold, at bare level and for a basis"),
    "C28": ("proved", "exact real arithmetic"),
    "C29": ("proved", "exact real arithmetic; the error on several segments is also characterised"),
    "C30": ("proved", ""),
    "C39": ("proved", ""),
    "C40": ("proved", "a float max_size below the cut raises TypeError (not part of the property)"),
    "C41": ("proved", "exact real arithmetic"),
    "C42": ("proved", "exact real arithmetic; argsort as parameter with its specification; equality at reflected knots of a discontinuous kernel is refuted with a witness"),
    "C43": ("proved", "exact real arithmetic; Gauss rule and SVD of the sampled matrix as hypotheses"),
    "C44": ("proved", "the policy and the dispatch to SVD algorithms; finfo of the double-double type is a parameter"),
    "C45": ("proved", "for the regularised Bose kernel the expansion is 1/wmax^2 times the physical kernel; see DESIGN.md findings"),
    "C33": ("proved", "exact real arithmetic; the exponential may be arbitrary on positive arguments"),
    "C34": ("proved", "exact real arithmetic; the documented sign is refuted"),
    "C35": ("proved", "exact real arithmetic"),
    "C36": ("proved", "exact real arithmetic; uninitialised memory and overflowing arguments are arbitrary"),
    "C37": ("proved", ""),
    "C38": ("proved", "exact real arithmetic; in doubles the segments of very large Lambda can coincide"),
    "C46": ("proved", ""),
    "C47": ("proved", "the SVE computation is an arbitrary function"),
    "C48": ("proved", "exact real arithmetic; the Lambda check in double precision is C49"),
    "C50": ("proved", "exact real arithmetic; an even function with a root in the centre gives a repeated point, hence the hypothesis [regular]"),
    "C51": ("proved", ""),
    "C52": ("proved", ""),
    "C59": ("proved", "The failures of hat on recent numpy and for scalars are part of the statement."),
    "C60": ("proved", "Float arrays; the truncation on integer arrays is refuted separately."),
    "C61": ("proved", "Inner basis is a FiniteTempBasis."),
    "C62": ("proved", ""),
    "C63": ("proved", ""),
    "C04": ("proved", "exact real arithmetic; integer frequencies for uhat and the asymptotic model"),
    "C53": ("proved", "exact real arithmetic; for FiniteTempBasis, AugmentedBasis (with np.complex) and DLR; fit under the hypothesis that numpy's SVD of the one matrix is one"),
    "C54": ("proved", "the documented last axis is refuted for arrays of rank 2 and more"),
    "C55": ("proved", "exact real arithmetic, exact SVD of the one matrix as hypothesis"),
    "C56": ("proved", "exact real arithmetic, exact real SVD of the stacked matrix as hypothesis"),
    "C57": ("proved", ""),
    "C58": ("proved", "exact real arithmetic; with no nonzero singular value the check itself raises IndexError"),
    "C64": ("proved", "exact real arithmetic"),
    "C65": ("proved", "exact real arithmetic"),
    "C66": ("proved", "exact real arithmetic; the SVD of the transfer matrix as hypothesis"),
    "C67": ("proved", "values as reals"),
    "C68": ("proved", "integers as Z"),
    "C69": ("proved", "exact real arithmetic; the bisection loop ends because each step halves the interval"),
    "C70": ("proved", "exact real arithmetic; sve.compute as parameter of load"),
    "C71": ("proved", "exact real arithmetic"),
    "C72": ("proved", "exact real arithmetic"),
    "C49": ("proved", "every operation rounded with Flocq; exponents unbounded above (no overflow), |Lambda| >= 2^-900 and Lambda/new_beta not subnormal"),
    "C73": ("proved", "exact real arithmetic; hypotheses: exact Legendre rules, argsort sorts, the SVD returns non-increasing nonnegative values with matching vectors"),
    "C74": ("proved", "exact real arithmetic; exactness of the SVD of the sampled matrices is a hypothesis"),
    "C75": ("proved", "hypotheses on the external rules, argsort and SVD as in C73"),
    "C76": ("proved", "exact real arithmetic; the search grid is any strictly increasing list of non-negative indices (the actual one is C14)"),
    "C77": ("proved", "exact real arithmetic; the SVD is an arbitrary function, of matching shapes for positive_only; times where C50 gives them"),
    "C78": ("proved", "as C76 and C77"),
    "C79": ("proved", "exact real arithmetic"),
    "C80": ("proved", "exact real arithmetic; where it matters, the SVD of the one matrix is a hypothesis"),
    "C81": ("proved", "exact real arithmetic; contracts of the four libraries for the one matrix are hypotheses"),
    "C82": ("proved", "exact real arithmetic; the SVD of the matrix fitted with and its full rank are hypotheses"),
    "C83": ("proved", "exact real arithmetic; the vectors the SVD library returns for the weighted matrices are singular triples (hypothesis)"),
    "C84": ("proved", "exact real arithmetic; the SVD library returns exact decompositions with ordered nonnegative values for the weighted matrices (hypothesis)"),
    "C86": ("proved", "exact real arithmetic after the decomposition; the vectors returned by the SVD library are taken to be exactly orthonormal, the product and the number of triples may be off by d"),
    "C85": ("proved", "exact real arithmetic; as for C83 and C84 the SVD library returns singular triples, or exact ordered decompositions for the best approximation and for returning (hypotheses on the weighted matrices)"),
    "C87": ("proved", "exact real arithmetic after the decompositions; what svd.compute returns for the two matrices is as documented up to an arbitrary error in each entry, with exactly orthonormal columns (hypothesis)"),
    "C88": ("proved", "every operation rounded with relative error u and absolute error eta below the smallest normal number, satisfied by Flocq's doubles (C88_doubles); overflow is not modelled and excluded by the bound on the cutoff; the accuracy of exp, expm1, sinh and cosh is a hypothesis"),
    "C89": ("proved", "as for C88; the accuracy of the reference rule is a hypothesis (rule_near), with weights and distances above 1e-20, segments at least 1e-100 long, and errors small enough for their products to be negligible (small_reference); the exact segments are given as representable numbers"),
    "C90": ("proved", "as for C89; the hinted segments and everything after the decompositions are exact; the library's decomposition of the rounded matrix has exactly orthonormal vectors and is right up to an arbitrary error d (hypothesis)"),
    "C91": ("proved", "the errors of the decomposition (vectors and product) are arbitrary and appear in the bound; how small they are is a matter of the library and not modelled; matrices may be rounded as in C90; the polynomials made from the vectors are exact"),
    "C92": ("proved", "numpy's legval is modelled as its recurrence, in both forms found in numpy releases; the coefficients and knots are exact inputs; overflow is not modelled"),
    "C93": ("proved", "the matrix of values and the singular value decomposition are taken as stored, with arbitrary errors that appear in the bounds; the matrix has full rank and at least as many rows as columns; overflow is not modelled"),
    "C94": ("proved", "histories of slicing, rescaling, augmenting and switching to poles; augmenting an augmented basis is not modelled; statistics and significance of augmented bases are characterised and the documented behaviour refuted"),
    "C95": ("proved", "numpy's legvander is modelled as its recurrence; the singular vectors and the segments are exact inputs; the working and the result type may round differently but with the same error bounds; overflow is not modelled"),
    "C96": ("proved", "bounds are for the returned polynomials with exact knot differences as segment lengths (calling them in rounded arithmetic is C92); the rounding of the result type is monotone; decompositions are parameters with the errors of C91; overflow is not modelled"),
    "C97": ("proved", "np.pi, spherical_jn, cos, sin and products of complex numbers and matrices are parameters with given errors; products made of rounded operations in any order are shown to be such; the values of the high-frequency model are given; frequencies are integers; overflow is not modelled"),
    "C98": ("proved", "w**ypower is a parameter with given relative error, np.sqrt is correctly rounded, the stored expansion is given with segment lengths rounded once; the moments of the high-frequency model are not rounded; overflow is not modelled; the constructor can refuse expansions with very short segments at large beta (C98_every_expansion_refuted), and succeeds whenever the condition `tolerated` holds"),
    "C99": ("proved", "the library's decompositions are arbitrary with given errors (computed_svd); their values are nonincreasing and nonnegative (decompositions_shaped) and the cutoff keeps values away from underflow (fair_cutoff); the kernel's cutoff lies in [1e-50, 1e16] for near-optimality; above the threshold uhat is that of C97/C98; overflow is not modelled"),
    "C100": ("proved", "the errors of u and uhat (fair_times, fair_frequencies), of the decompositions (decomposes) and of the inner products (arith_near) are hypotheses of the forms established in C93, C98 and C99; the matrix has full rank; frequencies are below the threshold of the high-frequency model; default sampling points are not rounded; overflow is not modelled"),
    "C101": ("proved", "rescaling succeeds under the conditions of C98 on the new scales (fair_scale, tolerated); slices with a positive integer or no stop; for a general rounding the comparison of Lambda is a hypothesis, in doubles it is proved; overflow is not modelled"),
    "C102": ("proved", "knots of the expansion are doubles (those of sve.compute are after conversion); the location of roots assumes segments long enough for values to be meaningful (accurate); roots of odd functions other than the centre are covered by the location and symmetry statements but not by the report of sign changes; overflow is not modelled"),
    "C103": ("proved", "values of the high-frequency model are a parameter (the model is the one the searched transform uses, not compared with its exact value); declared parities are exactly 1 or -1; the search grid is any strictly increasing grid of two or more indices that are not negative (that the default grid is one is C14); overflow is not modelled"),
    "C104": ("proved", "the polynomials have right end 1, n u <= 1/200 and a last segment that is not too short (good_end); frequencies with 1000 eta |n| <= u; the integral needs the left end -1, the parity of the index and is corrected by the jumps at inner knots; overflow is not modelled"),
    "C105": ("proved", "np.tanh and the functions behind the kernel are parameters with given relative errors, beta times the largest pole is at most 1e89, underflow is negligible at the poles considered (fair_pole); the decomposition has the errors of C93 and full rank; poles are given (default poles are C102); overflow is not modelled"),
    "C106": ("proved", "underflow is negligible at the temperature and the frequencies (fair_beta, fair_freq; met in doubles by the ranges given); accuracy of np.pi is a hypothesis; hat of TauConst needs np.complex and hat of TauLinear an array, as in C59; overflow is not modelled"),
    "C107": ("proved", "radix is 2 (the default, and the only one overlap uses); the value is compared with the exact sum of the computed products, not with the integral (the errors of computed polynomials are C92); sums are any with given relative error, which those made of rounded additions are (C107_sums); calls that raise are not characterised in doubles; overflow is not modelled"),
}
