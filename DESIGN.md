# Formal model of sparse-ir in Rocq/Coq 8.16.1: design

Source: /repo (read as text, never executed). Model: `rocq/theories/`.

## 1. Layout

* `Model/*.v`  definitions only; each definition cites the lines of /repo it models.
* `Spec/*.v`   small specification vocabulary (sortedness, local maximum, Fourier integral,
  least-squares minimiser, ...), independent of the model's helpers.
* `Proofs/*.v` lemmas.
* `Props/*.v`  the property theorems and nothing else: each is closed by `exact lemma`,
  followed by `Print Assumptions` and by non-vacuity `Example`s.

Property ids C01... are those of `properties.jsonl`; theorem names start with the id.
A theorem whose name ends in `_refuted` exhibits an input on which the *documented* behaviour
fails; a theorem ending in `_partial` proves only part of its property.

## 2. Modelling conventions

* **Exceptions** are values: `res A := Ok a | Raise e` with the Python exception class.
  Warnings are part of the returned value (a boolean), never dropped.
* **Non-termination**: `while True` loops take fuel; theorems say "there is a fuel from which
  on the result is `Some r`" or "for every fuel the result is `None`".
* **Integers**: Python/numpy integers are `Z` (int64 overflow is modelled only in the cast of
  floats to int64).
* **Floats**: exact reals `R`, unless the property is about rounding (C08, C49, C88-C93, C95-C107), where every
  operation is followed by Flocq's `round radix2 (FLT_exp (-1074) 53) ZnearestE`.  NaN and
  infinities are modelled by `xr := Fin r | PInf | NInf | NaN` where a property is about them
  (C01, C02).  Root finding is parametric in the type of function values: only the sign bit and
  the zero test are used, so signed zeros and NaN are covered.
* **Arrays**: 1-D arrays are lists, coefficient tensors are functions of indices together with
  explicit dimensions, arrays of arbitrary rank are `nd := (shape, index -> value)`.
* **Complex numbers**: Coquelicot's `C`; integrals: Coquelicot's `RInt`/`is_RInt`.
* **External calls** (LAPACK SVD, eigenvalue solver, spherical Bessel functions) appear as
  explicit hypotheses of the theorems that state the mathematical contract of the routine.

## 3. Properties: what is modelled, how it is proved

| id | modelled | proof |
|----|----------|-------|
| C01 | `check_reduced_matsubara` on int/float arrays, cast to int64 | case analysis, parity of `&1` on negative Z |
| C02 | `check_range` over `xr` | case analysis; NaN via comparison semantics |
| C03 | `check_svd_result` on shapes | case analysis |
| C04 | ravel/reshape on `nd` arrays, decorator call | row-major index arithmetic, induction over shape |
| C05 | descriptor as state machine over events | induction over histories; interleavings of threads |
| C06 | `find_all`, `_bisect_discr` incl. work list and recursion | refinement to one bisection per bracket, measure b-a |
| C07 | `find_all`, `_bisect_cont` in exact reals | same refinement, archimedean termination, IVT |
| C08 | the same with Flocq rounding | midpoint strictly between non-adjacent doubles; finite measure |
| C09 | `discrete_extrema`, `_bisect_discr_extremum` | bracket invariant, measure b-a |
| C10 | the same + `_symmetrize_matsubara` | order proof for disjoint brackets; concrete counterexample |
| C11 | `_symmetrize_matsubara` | list induction |
| C12 | `_default_matsubara_sampling_points`, `extrema`, `sign_changes` for arbitrary functions | composition of C06/C09/C11 |
| C13 | `_fence_matsubara_sampling` | list lemmas on sort+unique |
| C14 | `_DEFAULT_GRID` via integer 16th roots | computation in the kernel |
| C15 | `Rule` and its methods | list induction |
| C16 | the same + Riemann integral | substitution rule, Chasles, induction over pieces |
| C17 | the same | list induction |
| C18 | `_polyvalderiv` | induction on n, `is_derive` |
| C19 | `rule_from_recurrence` (after Newton), Legendre recurrence | Christoffel-Darboux, orthogonality, interpolation; zeros of P_n by interlacing; uniqueness by Lagrange polynomials |
| C20 | Newton loop (5 steps, as in the code) and its `else` branch | case analysis; induction on iterations |
| C21 | the literals of `kronrod_31_15` as rationals | exact rational computation for monomials, linearity |
| C22 | `legendre_collocation` | from C19 + Legendre basis of polynomials |
| C23 | `_split` with `searchsorted` | list induction |
| C24 | `__call__`, `value`, `__getitem__` | unfolding + C23 |
| C25 | `deriv` with numpy's `legder` recurrence | derivative of Legendre series, chain rule |
| C26 | `roots`, `_refine_grid` on top of C07 | composition |
| C27 | `_compute_unl_inner` and helpers, spherical Bessel recurrence | integration by parts, Rayleigh-type formula, Chasles |
| C28 | the same + `_func_for_part` | conjugation, parity substitution |
| C29 | `_PowerModel`, `_power_moments`, `_derivs` | repeated integration by parts |
| C30 | shapes in `deriv` / FT constructor / reshape | arithmetic on sizes |
| C31 | `_compute_overlap`, `overlap` for every integrand (which may raise), tolerance, radix and limits | loop invariant: converged and pending intervals tile the domain; tolerance and definedness invariants; Gauss error bound and Chasles for piecewise polynomials |
| C32 | piecewise evaluation | orthogonality of Legendre polynomials |
| C33-C37 | kernels as real functions, branch by branch | real analysis (exp, field) |
| C38 | hint segments as lists for every Lambda | sums of positive terms, list reversal |
| C39, C40 | `_truncate`, `part` | list lemmas, counting |
| C41 | `_canonicalize` | algebra |
| C42 | `CentrosymmSVE.postprocess` | parity of Legendre series, sorting permutation |
| C43 | `SamplingSVE` | C16+C22+SVD hypothesis |
| C44 | `_safe_eps`, `svd.compute` dispatch | case analysis |
| C45, C46 | `FiniteTempBasis.__init__` | substitution in integrals, list lemmas |
| C47, C48 | `__getitem__`, `rescale`, `part` | list counting; induction over histories |
| C49 | floating-point product/quotient | Flocq relative error bounds |
| C50 | `_default_sampling_points` | list lemmas on midpoints |
| C51, C52 | constructor control flow | case analysis |
| C53, C54 | `_matop_along_axis` on `nd` arrays | index permutation lemmas |
| C55, C56 | `DecomposedMatrix`, `SplitDecomposedMatrix` | normal equations, Pythagoras |
| C57 | sampling constructors | permutation argument |
| C58 | `fit`, `cond`, `is_well_conditioned` | case analysis |
| C59, C60 | `TauConst`, `TauLinear`, `MatsubaraConst` | explicit antiderivatives |
| C61-C63 | `AugmentedBasis`, `_AugmentedFunction` | case analysis |
| C64-C66 | `TauPoles`, `MatsubaraPoles`, DLR | explicit antiderivatives, algebra |
| C67-C69 | adapter | list induction, bisection |
| C70-C72 | adapter `Basis`, `load`, Matsubara sampling points | reduction to the properties of the expansion and its transform |
| C73-C75 | `sve.compute` as a whole (both strategies) | inversion of the run; Frobenius norm identity for the error; case analysis for the exceptions |
| C76 | default frequencies of bases, from the full set of transforms | the searched function is real up to a factor 1 or i by parity; C06, C09, C12 |
| C77 | `TauSampling`, `MatsubaraSampling` without points, for the three kinds of bases | C50/C76 for the points, pointwise evaluation for the matrix |
| C78 | `FiniteTempBasisSet` | C52 and C77 |
| C79 | `conv_radius`, `ypower`, `ngauss`, `nsvals` | monotonicity of log and rounding; C27 |
| C80 | constructors, accessors and operations of `DecomposedMatrix`, `SplitDecomposedMatrix` | algebra of finite sums; C55, C56 lemmas |
| C81 | `svd.py` with the four libraries as parameters | case analysis; transposition of the product |
| C82 | both sampling classes on one basis | C30, C59, C65 for the functions, linearity and uniqueness of the integral, C53, C55, C56 |
| C83 | sve.compute as for C73, with complete or truncated decompositions | block equations at the nodes of half the segments, reflected by parity; exactness of the rules for the products |
| C84 | sve.compute as for C73 | Eckart-Young inequality for finite weighted sums (Gram-Schmidt, Bessel), the two blocks together as one orthonormal family |
| C85 | FiniteTempBasis.__init__ with its call of sve.compute (Model/Whole.v), on top of C45 and C73 | Change of variables in the quadrature sums of C83 and C84 with the factors of C45; validation as in C51, nonempty expansion from C84 |
| C86 | sve.compute, its strategies and the basis constructor, as C84 and C85 | The inexact decomposition is the exact one of another (centrosymmetric) function on the nodes; C84 for that function and the triangle inequality in the weighted sum of squares |
| C87 | sve.compute with svd.compute and its libraries in place (Model/Link.v joins Model/Compute.v and Model/Decomp.v) | The joined model returns what the abstract one returns for the algorithms of the libraries; entrywise errors give the distances of C86, warnings by cases |
| C88 | `_compute_uv`, `_compute` and `__call__` of the kernels and of the even and odd kernels with every operation followed by a rounding (Model/KernelIEEE.v) | Errors carried through by hand: relative error of the exponent times x exp(-x) <= 1, hyperbolic functions as weighted exponentials; the two branches of the odd kernels separately |
| C89 | `Rule.reseat`, `join`, `piecewise`, `matrix_from_gauss` and `SamplingSVE.matrices` with every operation followed by a rounding (Model/GaussIEEE.v) | Errors of one segment by hand, induction over the segments; kernel as a function of y is Lipschitz in the relative error of y with constant 3 times its size; C88 for the values |
| C90 | C89 joined with C86: the matrices computed with roundings on the hinted segments, handed to the decomposition inside `sve.compute` and on to `FiniteTempBasis` | Lower bounds for the hinted segments from `nzeros` and cosh; sum of the squared entry errors by the weights adding up to the length of the interval; triangle inequality for near decompositions |
| C91 | C86 and C90 for decompositions whose vectors are only nearly orthonormal | Nearest orthonormal set by the polar factor (from the singular value decomposition of the vectors, itself proved to exist): it is as close as the Gram matrix is to 1; error of the products; selected triples compared with the nearby exact decomposition; polynomials evaluated at the nodes |
| C92 | `poly.py` `__call__`, `value`, `_split` and numpy's `legval` as the program it is (Clenshaw's recurrence, both forms), every operation rounded | The recurrence does not increase the norm \|c0 + e^{i theta} c1\| with x = cos theta, so that errors add instead of being amplified; induction over the coefficients; propagation of the rounding errors of the local coordinate and of the normalisation |
| C93 | `evaluate` and `fit` of both kinds of sampling with inner products, divisions and additions replaced by those of a given arithmetic (Model/SamplingIEEE.v); the summation order of each element is free | Operations along an axis as relations between slices; backward part by the residual and orthonormality defects of the decomposition, forward part by Cauchy-Schwarz and Frobenius norms; errors of sums by induction over the summation tree |
| C94 | the attributes of `FiniteTempBasis`, `AugmentedBasis` and `DiscreteLehmannRepresentation` and a step function for slicing, rescaling, augmenting and switching to poles (Model/Access.v) | Invariant of sequences of operations by induction: the inner basis is one the constructor can make, with the kernel and expansion of the first one; sizes from the rows of u and uhat. |
| C95 | the whole of `sve.compute` with every operation of the collocation, the segment lengths, the sign convention, the merging of even and odd parts and the truncation rounded (Model/SVEIEEE.v); without rounding it is Model/Compute.v (C95_exact_arithmetic) | Errors of the recurrence of Legendre polynomials through their discrete Green's function, bounded with |P_k| <= 1; weights and square roots by relative errors; coefficients by Cauchy-Schwarz over the nodes of a segment and discrete orthogonality. |
| C96 | the model of C95 (Model/SVEIEEE.v, `compute_rd`); the library's decompositions are parameters with the errors of C91; the truncation and the sign convention are those of the model, applied to rounded values | Inversion of a run into its blocks; each computed block is a perturbation of the block that exact collocation would make from the same vectors (C95), which is orthonormal as far as the vectors are; the errors of all blocks are added in the root of the sum of squares; even and odd parts are orthogonal, so their defects combine as a maximum and their errors as a root; near-optimality by the argument of C91 (polar factor). Examples: both strategies in doubles return, with functions orthonormal up to 1e-6 |
| C97 | `PiecewiseLegendreFT.__call__` with `_compute_unl_inner`, `_phase_stable`, `_shift_xmid` and `_get_tnl`, every operation on reals rounded (Model/FTIEEE.v); library functions and products of complex numbers are parameters; without rounding it is Model/FT.v (C97_exact_arithmetic) | The cumulated sums of segment lengths are relatively near the distances of knots from the ends, so the shifted centres have errors relative to the distance from the nearest of -1, 0, 1; phases and Bessel functions are Lipschitz (by their integral representation, C27); errors of the terms are added over the order in which arrays are ravelled. |
| C98 | `FiniteTempBasis.__init__` with `_get_kernel`, the constructor of piecewise polynomials with given segment lengths, and `SVEResult.part`, every operation rounded (Model/BasisIEEE.v); w**z is a parameter with relative error ep; without rounding it is Model/Basis.v (C98_exact_arithmetic) | The scaled knots and lengths are near the exact ones (the knots absolutely, the lengths relatively); evaluation is on the rounded geometry with the stored coefficients, so the local coordinate is that of a point of the true segment up to units of rounding times (distance from the origin / length of the segment); values follow as in C92.  Inversion of the constructor gives sizes, truncation, accuracy and singular values; C97 with coefficients perturbed by three roundings gives uhat.  The closeness check of the lengths is bounded from both sides: success under `tolerated`, and a counterexample in doubles. |
| C99 | `FiniteTempBasis.__init__` without `sve_result`: C96's `sve.compute` followed by C98's constructor (Model/WholeIEEE.v); without rounding it is C85's model (C99_exact_arithmetic) | Inversion shows that whatever `sve.compute` returns has rounded segment lengths, nonincreasing positive values and equal sizes, so that C98 applies (C99_built).  The polynomials of the expansion make an exact basis `b0` of the same size (`exact_version`), because exact lengths always pass the constructor's check.  Near-optimality and orthonormality of `b0` follow from C96 by the change of variables of C85, values of u, v, uhat and s from C98. |
| C100 | `TauSampling` and `MatsubaraSampling` on a rounded basis: their matrices are the rounded `basis.u(points)` and `basis.uhat(points)` of C98/C99 (`sb_of_basis_rd`, Model/TransformIEEE.v), `fit` and `evaluate` those of C93 | Every entry of the matrices is near the value of the polynomials stored at a time nearby, or near their Fourier integral (C99).  The rows of Fourier integrals have norm at most sqrt(beta (1 + L a)) by Bessel's inequality for nearly orthonormal functions (Proofs/Bessel.v).  The error of the fit (C93) is then applied to the true values instead of to the matrix used, along any axis of an array of any rank, and carried through `evaluate`.  A basis of one function in doubles meets all hypotheses (C100_hypotheses) |
| C101 | `FiniteTempBasis.__getitem__`, `rescale`, `significance`, `lambda_`, `finite_temp_bases` and the bases of `FiniteTempBasisSet` on top of C98's rounded constructor (Model/OpsIEEE.v); without rounding they are the functions of C01-C05 (C101_exact_arithmetic) | Whether scaled knots are accepted does not depend on the number of polynomials, so a basis is a function of its setting and size (built_full, determined); slices and rescalings are new constructions with the kept kernel and expansion; histories by induction. In doubles the check of Lambda passes by C08's lemma. Two refutations: a temperature to which a basis cannot be rescaled, and a basis whose wmax changes when it is rescaled to its own beta |
| C102 | `_default_sampling_points`, `roots`, `deriv`, `_refine_grid` and the bisection with every operation rounded, on top of C97's rounded evaluation (Model/DefaultsIEEE.v); the sign bit of a computed zero is a parameter; without rounding it is Model/Poly.v and Model/Basis.v (C102_exact_arithmetic) | Bisection keeps a bracket of doubles in which the computed sign flips until its width is below one epsilon or it cannot shrink; a flip of the computed sign inside a segment bounds the true value by the error of evaluation or gives a zero through the intermediate value theorem; the halved grid of doubles stays sorted; symmetric points are exact since negation is; monotone rounding keeps moved points sorted and inside the moved interval; the derivative's coefficients by induction over the accumulation of legder |
| C103 | the discrete search (`find_all(type='discrete')`, `discrete_extrema`), `sign_changes`, `extrema`, `_default_matsubara_sampling_points` and `MatsubaraSampling(basis)` on computed values of uhat (Model/MatsubaraIEEE.v).  The searched function maps lists of frequencies to lists of (number, sign bit of a zero), because the matrix product behind uhat may give a frequency another value in another call | the loop is an induction on the width of integer brackets with the sign of the stored numbers as invariant; the stored numbers come from different calls, so the invariant speaks of *some* call; values are compared with the Fourier integral by C98's bound; a true value beyond its error has the sign of the computed one |
| C104 | `_derivs`, `_power_moments`, `_power_model`, `_PowerModel.giw` and the asymptotic branch of `PiecewiseLegendreFT.__call__` with every operation rounded (Model/TailIEEE.v), on top of C102's rounded `deriv` and C97's rounded evaluation; without rounding it is Model/FT.v (C104_exact_arithmetic). It instantiates the high-frequency model that is a parameter in C97-C103 | the sum of the absolute coefficients grows by at most 2 n^2/length with each derivative (Proofs/TailCoef.v), so errors follow an explicit recurrence (`coef_error`); Horner's rule in 1/(iw), whose real part is exactly zero, is a sum of terms each with m+1 perturbed factors (Proofs/TailGiw.v); repeated partial integration (C28) gives the integral |
| C105 | `TauPoles.__call__`, `MatsubaraPoles.__call__`, the transfer matrix, `to_IR` and `from_IR` with every operation rounded (Model/DLRIEEE.v); complex division is Smith's algorithm as in numpy; products of matrices are those of C93, values of v those of C98 and C92; without rounding it is Model/DLR.v (C105_exact_arithmetic) | kernel values by C88 at the rounded point, whose distance from the given time is 3 u beta since no `x_plus` is passed; Smith's division has relative error 13 u as no cancellation occurs in its denominator (Proofs/DLRRound.v); matrix entries, products, least squares and the round trip from the lemmas of C93 (Proofs/DLRRoundProps.v) |
| C106 | `__call__`, `deriv` and `hat` of `TauConst`, `TauLinear` and `MatsubaraConst` and `u`, `uhat` of `AugmentedBasis` with every operation rounded (Model/AugmentIEEE.v); the complex division by 1j and product with a real number in `hat` are exact but for one product; without rounding it is Model/Augment.v (C106_exact_arithmetic) | relative errors carried through products, inverses and square roots (Proofs/AugmentRound.v), compared with the exact functions, derivatives and Fourier integrals of C59 and C60; layout and domains from C92, C98 and C99 (Proofs/AugmentRoundProps.v) |
| C107 | `_compute_overlap` and `overlap` with radix 2, `NestedRule.reseat` and the rounded table of `kronrod_31_15`, in doubles, with sums in any order (Model/OverlapIEEE.v); without rounding it is Model/Overlap.v | additions of doubles have a relative error even near underflow (Flocq); halving stays inside by monotony; loop invariant: tiling with double ends, running totals within a factor (1+u) per level, tolerance per interval; calls that raise are not characterised |

Not expressible here: run time, memory use, and the rounding error of the complete pipeline
(no floating-point model of LAPACK); every theorem about values is about exact arithmetic
except C08, C49 and C88-C93, C95-C107.

## 4. Trusted base

* Coq 8.16.1: its kernel (and `coqchk`, which re-checks all compiled files), including the
  reduction machines used by `vm_compute` proofs.
* No axioms of our own, no functors or module types, no `Admitted`.  The only axioms are those
  of Coq's standard library listed below: the construction of the reals
  (`ClassicalDedekindReals.sig_forall_dec`, `sig_not_dec`), functional extensionality, and
  (through Coquelicot and Flocq) the excluded middle `Classical_Prop.classic`.
* The reading of the Python code that the model expresses, and the semantics of numpy/scipy
  routines where they are written as functions (`searchsorted`, `unique`, `argsort`, `linspace`,
  `legval`, `legder`, indexing, broadcasting, casts); each such function carries a comment.
* Hypotheses about external routines appear in the theorem statements themselves: LAPACK's SVD
  (`is_svd` of the particular matrix, or only the shape of the result), the eigenvalue solver of
  `rule_from_recurrence` (any initial nodes), spherical Bessel functions (their recurrence).

`Print Assumptions` for each property theorem (made by `tools/gen_assumptions.py`; each theorem
is also followed by its own `Print Assumptions` in `Props/`):

* no axioms (closed under the global context):
  `C03_svd_shapes_accepted_iff`, `C03_svd_shapes_otherwise_valueerror`,
  `C05_call_evaluates_last_accessed_object`, `C05_single_thread_correct`,
  `C05_thread_isolation_refuted`, `C05_threads_sharing_one_object_correct`,
  `C05_uninterrupted_evaluation_correct`, `C06_discrete_sign_changes`,
  `C11_symmetrize_otherwise_valueerror`, `C11_symmetrize_sorted_nonnegative`,
  `C12_requested_count`, `C13_fence_fails_only_on_empty`, `C13_fence_keeps_symmetry_refuted`,
  `C13_fence_structure`, `C13_fence_symmetric_iff`, `C20_legendre_0_raises`, `C24_index`,
  `C24_slice_then_index`, `C44_dispatch`, `C44_strategy_matters_refuted`,
  `C61_negative_index_from_the_end_refuted`, `C61_u_slices`, `C67_no_values`,
  `C68_bosonic_interval`, `C68_bosonic_interval_of_nothing`, `C68_fermionic_interval`
* `ClassicalDedekindReals.sig_forall_dec`:
  `C25_stored_parity`, `C81_errors`, `C81_library`, `C81_warnings`
* `ClassicalDedekindReals.sig_forall_dec`, `FunctionalExtensionality.functional_extensionality_dep`:
  `C01_reduced_matsubara_accepts_exactly`, `C01_reduced_matsubara_otherwise_valueerror`,
  `C02_range_check`, `C09_C10_discrete_extrema`, `C09_unimodal_peak_found`, `C102_source_exists`,
  `C104_zero_frequency`, `C105_outside`, `C105_zero_over_zero`, `C106_doubles`,
  `C10_extrema_ordered_refuted`, `C12_default_matsubara_points`,
  `C12_fallback_always_returns_refuted`, `C15_distances_kept`, `C15_new_interval`,
  `C15_nodes_ordered_inside`, `C15_nodes_ordered_inside_closed`, `C15_weight_sums`,
  `C17_join_of_nothing`, `C17_join_rejects_exactly_gaps`,
  `C17_piecewise_rejects_exactly_unordered`, `C18_polynomials_are_monic`,
  `C19_recurrence_is_legendre`, `C19_weights_sum_to_length`, `C20_exact_start_fails`,
  `C20_legendre_1_raises`, `C20_rule_iff_some_step_fails_to_halve`,
  `C21_rule_carries_the_constants`, `C21_symmetric_positive_increasing`, `C23_construction`,
  `C23_segment_lookup`, `C24_index_then_deriv`, `C24_slice_then_deriv`, `C33_elementwise`,
  `C33_outside_rejected`, `C36_elementwise`, `C36_errors`, `C36_signs`, `C39_keeps_significant`,
  `C39_outcomes`, `C39_prefix_and_limit`, `C40_common_prefix`, `C40_errors`, `C40_length`,
  `C40_threshold`, `C53_matsubara_evaluate`, `C53_matsubara_matrix`, `C53_tau_evaluate`,
  `C53_tau_matrix`, `C54_last_axis_of_vectors`, `C54_last_axis_refuted`,
  `C57_given_order_iff_sorted`, `C57_matsubara_points`, `C57_matsubara_points_accepted`,
  `C57_order_ignored`, `C57_tau_points`, `C57_tau_points_accepted`, `C58_matsubara_warning`,
  `C58_no_singular_value`, `C58_positive_warning`, `C58_tau_warning`, `C62_objects`,
  `C64_constructor`, `C64_outside`, `C67_choice_is_determined`, `C67_one_maximum_per_piece`,
  `C79_gauss_points`, `C79_symmetrized`, `C80_cond_of_zero`, `C80_created`, `C80_matmul`,
  `C80_product`, `C80_split_created`, `C80_split_form`, `C80_split_matmul`, `C80_split_product`,
  `C80_svd`, `C81_complex`, `C81_documented_for_complex_refuted`, `C88_exact_arithmetic`,
  `C88_exceptions`, `C89_exceptions`, `C89_piecewise`, `C89_resolved`, `C89_segments`,
  `C91_covers_orthonormal`, `C92_computed_lengths`, `C92_covers`, `C92_exact_lengths`,
  `C93_exact_arithmetic`, `C93_matsubara_points`, `C93_tau_points`, `C95_any_order`,
  `C96_truncation`, `C98_double_scales`
* `ClassicalDedekindReals.sig_forall_dec`, `ClassicalDedekindReals.sig_not_dec`, `FunctionalExtensionality.functional_extensionality_dep`:
  `C04_asymptotic_model_on_arrays`, `C04_dlr_uhat_on_arrays`, `C04_uhat_on_arrays`,
  `C07_continuous_roots`, `C100_evaluate_times`, `C100_exact`, `C100_matsubara_sampling`,
  `C100_rows`, `C100_tau_sampling`, `C101_basis_set`, `C101_determined`, `C101_exact_arithmetic`,
  `C101_history`, `C101_lambda`, `C101_pair`, `C101_pair_succeeds`, `C101_rescale`,
  `C101_rescale_errors`, `C101_routes`, `C101_significance`, `C101_significance_error`,
  `C101_slice`, `C102_exact_arithmetic`, `C103_exact_arithmetic`, `C103_extrema`, `C103_no_parity`,
  `C103_sampling`, `C103_sign_changes`, `C104_exact_arithmetic`, `C105_exact_arithmetic`,
  `C105_from_IR`, `C105_matrix`, `C105_refuses`, `C105_round_trip`, `C105_to_IR`,
  `C105_to_IR_same_function`, `C106_exact_arithmetic`, `C106_refuses`, `C106_u`, `C106_u_domain`,
  `C106_uhat`, `C106_uhat_domain`, `C106_values`, `C107_exact_arithmetic`,
  `C15_nested_rule_follows`, `C16_piecewise_exact_on_piecewise_polynomials`,
  `C16_reseat_keeps_exactness`, `C21_embedded_rule_error`, `C21_full_rule_error`, `C23_evaluation`,
  `C23_evaluation_outside`, `C24_exceptions`, `C24_slice_then_call`, `C24_succeeds_iff`,
  `C24_value_is_entry_of_call`, `C24_value_is_item_call`, `C24_vectorised`,
  `C24_vectorised_succeeds_iff`, `C25_call_of_deriv`, `C26_even`, `C26_no_parity`, `C26_odd`,
  `C26_roots_distinct_refuted`, `C27_call_succeeds`, `C29_indexing`, `C29_indexing_any_refuted`,
  `C29_model_at_zero`, `C29_model_series`, `C29_slicing`, `C29_switch`,
  `C30_derivative_constructible`, `C30_derivative_not_evaluable`, `C31_accuracy`, `C31_defined`,
  `C31_exceptions`, `C31_integral_refuted`, `C31_partition`, `C31_points_outside`, `C31_tolerance`,
  `C31_too_many_intervals`, `C31_vanishing_product`, `C37_bose_weight`, `C37_bose_weighted_kernel`,
  `C41_defined`, `C41_gauge`, `C42_parity`, `C42_reconstructs`, `C42_reflected_knots_refuted`,
  `C42_sorted`, `C44_policy`, `C44_policy_is_dispatched`, `C45_bose_kernel`, `C45_expansion`,
  `C45_intervals`, `C45_logistic_kernel`, `C45_u`, `C45_u_inner_products`, `C45_v`,
  `C45_v_inner_products`, `C46_accuracy_and_significance`, `C47_nonpositive_bound`, `C47_rejected`,
  `C47_sequences`, `C47_slice`, `C47_slice_never_enlarges_refuted`, `C48_errors`, `C48_rescale`,
  `C48_sequences`, `C48_size_always_kept_refuted`, `C50_default_number`, `C50_omega_points`,
  `C50_points_distinct_refuted`, `C50_tau_points`, `C51_accepts`, `C51_kernel_without_lambda`,
  `C51_rejects`, `C51_substring_keyerror`, `C52_basis_set`, `C52_pair_exists`, `C52_pair_shares`,
  `C53_C55_matsubara_fit`, `C53_C55_tau_fit`, `C53_finite_temp_basis`, `C54_matsubara`, `C54_tau`,
  `C55_matsubara_recovers`, `C55_tau_recovers`, `C56_positive_fit`, `C56_positive_recovers`,
  `C57_fit_points`, `C58_well_conditioned`, `C59_array_evaluation`, `C59_hat_every_call_refuted`,
  `C59_matsubara_const`, `C59_odd_frequencies`, `C60_matsubara_const`, `C61_slice_errors`,
  `C61_slices`, `C61_u_layout`, `C61_uhat_layout`, `C62_construction`, `C62_created`,
  `C62_fermionic_uhat_raises`, `C62_odd_frequency_raises`, `C63_accessors`,
  `C64_nan_or_zero_poles`, `C65_no_parity_check`, `C65_zero_over_zero`, `C66_constructor`,
  `C66_from_IR`, `C66_to_IR`, `C66_to_IR_exact`, `C69_root_of_continuous_function`,
  `C70_accepted_statistics`, `C70_functions_of_the_expansion`, `C70_load`, `C70_size`,
  `C71_all_functions`, `C71_one_function`, `C76_default_number`, `C76_no_parity`,
  `C77_matsubara_augmented_fermions`, `C77_matsubara_dlr`, `C77_matsubara_dlr_zero_pole`,
  `C77_matsubara_sampling`, `C77_tau_sampling`, `C78_refused`, `C78_set`, `C80_lstsq`,
  `C80_split_lstsq`, `C81_documented`, `C82_evaluate`, `C82_frequency_to_time`,
  `C82_positive_to_time`, `C82_time_to_frequency`, `C86_truncated_decompositions`,
  `C89_exact_arithmetic`, `C89_returns`, `C92_array`, `C92_array_exceptions`, `C92_call`,
  `C92_exact_arithmetic`, `C92_outside`, `C92_set`, `C92_value_is_entry_of_call`,
  `C92_value_is_item_call`, `C93_any_order`, `C93_data_of_true_functions`,
  `C93_exact_decomposition`, `C93_matsubara_evaluate`, `C93_matsubara_fit`,
  `C93_matsubara_round_trip`, `C93_matsubara_warning`, `C93_positive_only_fit`,
  `C93_positive_only_round_trip`, `C93_positive_only_warning`, `C93_tau_evaluate`, `C93_tau_fit`,
  `C93_tau_round_trip`, `C93_tau_warning`, `C93_values_of_true_functions`, `C94_conditioning`,
  `C94_same_expansion`, `C94_settings`, `C94_significance_and_accuracy`,
  `C94_significance_of_augmented_refuted`, `C94_sizes`, `C94_statistics`, `C95_coefficients`,
  `C95_functions`, `C95_legendre_values`, `C95_values`, `C97_call_succeeds`,
  `C97_exact_arithmetic`, `C97_high_frequency`, `C97_rounded_library`, `C98_accuracy`,
  `C98_covers`, `C98_exact_arithmetic`, `C98_singular_values`, `C98_sizes`, `C98_succeeds`,
  `C98_truncation`, `C98_u`, `C98_v`, `C99_exact_version`, `C99_singular_values`, `C99_u`, `C99_v`
* `ClassicalDedekindReals.sig_forall_dec`, `ClassicalDedekindReals.sig_not_dec`, `Classical_Prop.classic`, `FunctionalExtensionality.functional_extensionality_dep`:
  `C04_dlr_u_on_arrays`, `C08_ieee_bisection_always_terminates_refuted`,
  `C08_ieee_bisection_terminates`, `C100_evaluate_frequencies`, `C100_frequency_to_time`,
  `C100_positive_to_time`, `C100_time_to_frequency`, `C101_every_temperature_refuted`,
  `C101_rescale_double`, `C101_rescale_to_own_beta_refuted`, `C102_derivative`, `C102_omega`,
  `C102_points`, `C102_roots`, `C102_tau`, `C102_tau_sampling`, `C102_values`, `C103_located`,
  `C103_maxima`, `C103_true_values`, `C103_values`, `C104_any_frequency`, `C104_basis`,
  `C104_call`, `C104_integral`, `C104_moments`, `C104_series`, `C105_doubles`,
  `C105_frequency_functions`, `C105_loss_grows`, `C105_time_functions`, `C106_derivatives`,
  `C106_hat`, `C107_halving`, `C107_partition`, `C107_sums`, `C107_tolerance`,
  `C12_fallback_points_increasing_refuted`, `C14_default_grid`, `C18_value_and_derivative`,
  `C19_gauss_legendre_exact`, `C19_gauss_rule_exists_and_is_unique`, `C20_exact_arithmetic_fails`,
  `C22_collocation_inverts_evaluation`, `C25_deriv_is_derivative`, `C25_parity`, `C27_basis_uhat`,
  `C27_legendre_integral`, `C27_uhat_is_fourier_integral`, `C28_conjugation`,
  `C28_real_or_imaginary`, `C29_exact_on_one_segment`, `C29_model_error`, `C32_inner_product`,
  `C32_orthonormal_iff`, `C33_logistic_formula`, `C34_bose_value`,
  `C34_documented_formula_refuted`, `C35_centrosymmetric`, `C36_symmetrized_value`,
  `C37_logistic_weight`, `C38_accepted_by_quadrature`, `C38_segments_valid`,
  `C38_symmetrized_segments`, `C42_orthonormal`, `C42_reconstructs_everywhere`,
  `C43_nodes_and_orthonormal`, `C49_rescale_passes_the_check`, `C53_augmented_basis`,
  `C53_dlr_basis`, `C56_zero_frequency_row`, `C59_hat_is_fourier`, `C59_orthonormal`,
  `C60_derivatives`, `C60_integer_arrays_refuted`, `C61_u_domain`, `C64_time_functions`,
  `C65_fourier_integral`, `C69_finds_all_roots_refuted`, `C69_one_root_per_sign_change`,
  `C69_x_points`, `C69_y_points`, `C70_derivatives`, `C71_fourier_integral`, `C72_order_too_large`,
  `C72_sampling_frequencies`, `C72_search_indices`, `C73_basis_input`, `C73_parity`,
  `C73_well_formed`, `C74_error_centrosymmetric`, `C74_error_sampling`, `C75_default_cutoff`,
  `C75_rejects`, `C75_returns`, `C75_unknown_strategy`, `C76_extrema`, `C76_searched_values`,
  `C76_sign_changes`, `C77_matsubara_augmented`, `C77_tau_augmented`, `C77_tau_augmented_constant`,
  `C77_tau_dlr`, `C78_exists`, `C79_conv_radius`, `C79_singular_values`, `C82_augmented_basis`,
  `C82_basis_frequency_to_time`, `C82_basis_positive_to_time`, `C82_basis_time_to_frequency`,
  `C82_dlr`, `C82_finite_temp_basis`, `C83_singular_centrosymmetric`, `C83_singular_sampling`,
  `C84_best_centrosymmetric`, `C84_best_sampling`, `C84_nonempty_centrosymmetric`,
  `C84_nonempty_sampling`, `C85_best_centrosymmetric`, `C85_best_sampling`, `C85_bosonic_kernel`,
  `C85_constructor_computes`, `C85_default_kernel`, `C85_diagonalizes_centrosymmetric`,
  `C85_diagonalizes_sampling`, `C85_returns`, `C85_shape`, `C86_basis_centrosymmetric`,
  `C86_basis_sampling`, `C86_near_best_centrosymmetric`, `C86_near_best_sampling`, `C87_basis`,
  `C87_near_best_centrosymmetric`, `C87_near_best_sampling`, `C87_same_exceptions`,
  `C87_same_result`, `C87_warnings`, `C88_distances`, `C88_doubles`, `C88_logistic_doubles`,
  `C88_points`, `C88_reduced`, `C88_size`, `C89_matrix`, `C89_reduced`,
  `C90_basis_centrosymmetric`, `C90_basis_sampling`, `C90_centrosymmetric`, `C90_even_odd`,
  `C90_matrix`, `C90_sampling`, `C90_segments`, `C91_basis_centrosymmetric`, `C91_basis_sampling`,
  `C91_near_orthonormal_centrosymmetric`, `C91_near_orthonormal_sampling`,
  `C91_rounded_centrosymmetric`, `C91_rounded_sampling`, `C92_doubles`, `C93_doubles`,
  `C95_exact_arithmetic`, `C96_returns`, `C96_sampling`, `C96_symmetric`, `C97_doubles`,
  `C97_transform`, `C98_double_end_points`, `C98_double_stored`, `C98_every_expansion_refuted`,
  `C98_uhat`, `C99_built`, `C99_constructor_computes`, `C99_exact_arithmetic`,
  `C99_near_best_sampling`, `C99_near_best_symmetric`, `C99_uhat`

## 5. What is modelled and what is not

| file | modelled | not modelled |
|------|----------|--------------|
| `_util.py` | everything | |
| `_roots.py` | everything, in exact and in IEEE arithmetic | |
| `_gauss.py` | everything except the conversions of dtype | `astype` |
| `poly.py` | everything; data of rank 2 and 3 | data of higher rank, NaN in data |
| `kernel.py` | all kernels, hints and reduced kernels, `weight_func`, `matrix_from_gauss` | abstract methods that only raise |
| `sve.py` | everything | choice of dtype other than through `_safe_eps` |
| `svd.py` | everything | the four libraries it calls (contracts as hypotheses); the warning texts |
| `basis.py` | everything | |
| `basis_set.py` | everything (C52, C78) | |
| `augment.py` | everything | abstract methods |
| `dlr.py` | everything | |
| `sampling.py` | everything | object identity of views |
| `adapter.py` | everything except the HDF5 file argument | |
| `abstract.py` | the interface, through the classes that implement it (C94) | |

Arithmetic is exact except in C08, C49 and C88-C93, C95-C107.  In C88-C93, C95-C107 overflow is not modelled and the
accuracy of the elementary functions is a hypothesis (`tfun_near`).

## 6. Findings: where the code departs from its documentation

Each is a theorem (`_refuted` or an exact characterisation) of the property named.

1. `augment.py:72` `AugmentedBasis.statistics` raises TypeError (C63).
2. `augment.py:183` `AugmentedTauFunction.xmax` returns `xmin` (C62).
3. `augment.py:185-189` `AugmentedTauFunction.deriv` raises TypeError (C62).
4. `augment.py:250` `TauConst.hat` uses `np.complex`, removed from numpy (C59).
5. `AugmentedBasis[:]` raises TypeError; `u[-1]` returns the last augmentation for size-one
   slices (C61).
6. One `RavelArgumentDecorator` object is shared by all instances of a class, so interleaved
   calls can be evaluated on the wrong instance (C05).
7. `basis[:n]` and `rescale` drop eps (C47, C48).
8. `MatsubaraSampling` sorts the given points (C57).
9. `axis=None` contracts the last-but-one axis of arrays of rank two or more (C54).
10. `ReducedKernel` without `x_plus` raises TypeError (C36).
11. The documented sign of `RegularizedBoseKernel` is wrong (C34); its expansion is
    wmax^(-2) times the physical kernel (C45, C85).
12. Statistics are compared by substring, so `''` and other strings pass (C37, C51).
13. The Newton loop of `rule_from_recurrence` leaves by `break` only when a step fails to
    halve, so in exact arithmetic it never does so close to the zeros, and the `else`
    branch, meant for failure, raises AttributeError from its format string (C20).
14. `Rule.join()` of nothing (C17).
15. `PiecewiseLegendrePoly` accepts repeated knots (C23).
16. `roots()` of an even polynomial lists the midpoint twice (C26, C50).
17. Phase and normalisation in the docstring of the Fourier transform (C27).
18. `_power_moments` alternates signs by position (C29); `freq='any'` cannot be indexed (C29);
    `giw` has its axes in the other order (C04).
19. `overlap`: aborted integrations drop the pending intervals; a product that vanishes for one
    polynomial makes the result zero for all; more than 2000 initial intervals raise TypeError
    (C31).
20. `find_all` can loop forever when the tolerance underflows (C08); `discrete_extrema` can
    return unordered points (C10), and then so can the fermionic fallback of the default
    Matsubara points (C12).
21. `dlr.py` does not check the parity of frequencies; a bosonic pole at zero with n = 0 is 0/0;
    poles that are all zero raise ValueError (C64, C65).
22. `_canonicalize` divides by zero if u_l(1) = 0 (C41).
23. `_truncate` with an integral float lmax raises IndexError, with inf OverflowError (C39);
    `part()` with a float max_size raises TypeError (C40).
24. Singular values that are all zero raise IndexError in `cond` (C58).
25. `deriv()` keeps `polyorder` (C30).
26. `_fence_matsubara_sampling` is not symmetric for one-sided input (C13).
27. `svd.compute` ignores the strategy for the extended dtype (C44, C75).
28. `TauLinear.hat` of a scalar raises TypeError (C59); `TauLinear.deriv(1)` truncates on
    integer arrays (C60).
29. adapter: `_find_roots` misses zeros on mesh points (C69); empty samples raise IndexError or
    ValueError; negative `whichl` can raise AssertionError (C72); v-domain is not checked (C70).
30. Merged functions use the left limit of the reduced function at negative interior knots
    (C42).
31. `default_matsubara_sampling_points` raises ValueError for expansions whose functions carry no
    parity, which includes every expansion made with `strategy=SamplingSVE`; above the threshold
    40 Lambda the asymptotic model assumes that parities alternate (C76).
32. `TauSampling` of a basis augmented by `MatsubaraConst` fails on NaN; `MatsubaraSampling` of a
    fermionic basis augmented by `TauConst` or `TauLinear` raises ValueError (C77).
33. `svd.compute` of a complex matrix with the full SVD returns V with A == (U*s) @ V.conj().T,
    not the documented (U*s) @ V.T (C81).
34. `SplitDecomposedMatrix` made with `has_zero` drops the imaginary part of the first row, so
    `u * s @ vT` is the matrix only if that row is real (C80).
35. `AugmentedBasis.significance` has no entries for the augmentations, although one for each
    basis function is documented (C94).
36. `FiniteTempBasis` rescales knots and segment lengths separately and then requires them to agree by
    `np.allclose`; in doubles, for beta above about 10^8 and segments near tau = beta of relative length
    near 10^-10 or less, they need not, and then ValueError is raised for a valid expansion (C98).
37. `rescale(beta)` of a basis to the beta it has need not return an equal basis: in doubles wmax becomes
    the rounded quotient Lambda / beta, which can be the neighbour of the given wmax (C101).
38. `rescale` can raise ValueError for a positive beta, for the reason given in 36 (C101).
39. The time functions of `DiscreteLehmannRepresentation` do not pass `x_plus` to the kernel (dlr.py, `TauPoles.__call__`), so small times
    lose their digits in `2 tau / beta - 1` and the absolute error grows like u beta |pole|: it is at least 2^-39 at beta = 1, pole 2^20
    and tau = 2^-56, where a value good to a few 2^-52 was attainable (C105_loss_grows).
