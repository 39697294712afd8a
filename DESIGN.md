# Formal model of bezman

Rocq/Coq 8.16.1, sources in `rocq/theories/`, build with
`coq_makefile -f _CoqProject -o Makefile && make -j4` in `rocq/`.

## Approach

The C++ source is modelled function by function by total, computable Gallina
functions.  Each model definition cites the file and lines it stands for.

* **Outcomes.**  A modelled call returns `res A`:
  `Ok a`, `Throw` (a C++ exception, always through `Logger::TerminatingError`),
  `AssertFail` (an `assert` that is active in debug builds), `UB` (out-of-range
  access to a vector/array, unsigned underflow used as a size, ...),
  `NonFinite` (division by a zero scalar) and `Diverge` (fuel exhausted).
  A theorem with conclusion `... = Ok r` therefore also says: no exception,
  no failed assertion, no out-of-bounds access, no division by zero.
* **Containers.**  `std::vector`/`std::array` are lists; every access is a
  checked `get`/`set` which gives `UB` outside the bounds.
* **Loops.**  Counting loops are monadic folds over the exact index range of the
  source; `while` loops carry fuel with an explicit `Diverge`.
* **Scalars.**  Arithmetic is exact.  The model is parametrised by a record of
  scalar operations; theorems assume the laws of a commutative ring / ordered
  field.  Instances: `Qc` (executable, used for the concrete examples) and `R`
  (for calculus).  C71-C73 and C81-C87 run the same functions with another instance in which
  every operation is rounded to nearest (`ModelRound.v`).
* **Points.**  `PhysicalPointType` is a module over the scalars; `Point<d>` is an
  instance for each `d`.
* **Sizes.**  `std::size_t` sizes are unbounded naturals except where the source
  narrows (`unsigned int`, `int`) or underflows: those are modelled explicitly.

## Specification side

The files `Spec*.v` contain textbook mathematics (binomials, Bernstein polynomials,
tensor-product sums over multi-indices, iterated directional derivatives, RFC 4648,
bit-free descriptions of the file contents ...), the class invariants `wf`/`rwf`
(conditions on the data members only) and the histories of calls.  They do not
use the model's helper functions.  Derivatives are the standard library's
`derivable_pt_lim`.

## Files

| files | contents |
|-------|----------|
| `Prelude.v`, `Scalar.v`, `Coord.v`, `Order.v`, `Sums.v` | outcomes, loops, scalar and point structures with their laws, sums |
| `Model*.v` | the model, one file per part of the library |
| `Spec*.v` | specifications |
| `Proof*.v`, `Claims*.v` | lemmas and proofs of the claims |
| `Examples.v` | the concrete splines used in the cases |
| `Properties*.v` | the theorems listed in `MANIFEST.json`, each with `Print Assumptions` and a concrete case |

## Per property

"refuted" means: the English property is false of the modelled code, a theorem
`..._refuted` gives a witness and the other theorems say what does hold.

| id | modelled code | how it is proved |
|----|---------------|------------------|
| C01 | index conversions, offsets | mixed-radix arithmetic, induction on the degree list |
| C02 | all spline-producing operations, polynomial and rational | each successful call preserves `wf`/`rwf`; mutual induction on histories (`SpecHistory.v`). Refuted for the default constructor |
| C03 | both `ControlPoint` versions, 32-bit accumulator explicit | invariant of the accumulation loop |
| C04 | table creator, `choose`, 64-bit wrap-around | invariant of the fill loop + monotonicity of binomials |
| C05 | `BernsteinPolynomial::Evaluate` | loop invariants |
| C06 | `BasisFunctions` | via C05, C08 and the binomial theorem |
| C07 | `BernsteinPolynomial::EvaluateDerivative` | algebraic identity + iterated `derivable_pt_lim` |
| C08 | `RecursiveCombine` | induction on the number of factors |
| C09 | `Evaluate`, in-place buffer | loop invariants; de Casteljau identity |
| C10 | `ForwardEvaluate` | via C06 and C09 |
| C11, C12 | `Evaluate`, corners | from C09, C06 |
| C13 | `OrderElevateAlongParametricDimension` | loop invariants on the in-place buffer, degree-elevation identity |
| C14 | `DerivativeWRTParametricDimension` | loop invariants, forward-difference identity, `derivable_pt_lim` |
| C15 | `EvaluateDerivative` | algebraic identity, `derivable_pt_lim` |
| C16 | unsigned underflow of the degree modelled (`ModelDerivShape.v`) | refuted |
| C17, C18 | `+`, `+=`, `-=` with `while` loops on fuel | termination measure + C13 |
| C19 | `-` | refuted: divergence for every fuel; partial theorem when it terminates |
| C20 | `*`, recursive helper | induction on the dimension + Bernstein product identity |
| C21 | scalar/point operators | linearity of C09 |
| C22 | loops with an aliased argument | refuted; exact result of the aliased call |
| C23 | `RaisePower` | strong induction on the exponent |
| C24 | `ExtractDimension` | linearity |
| C25-C27 | corners, `FitsIntoUnitCube`, `FitIntoUnitCube` | loop invariants; C27 refuted |
| C28-C31, C61 | `Compose*`, `ComposeSensitivity*` with helpers | products/powers of splines + C09; C31 refuted for rational of rational |
| C32, C33 | both `SplitAtPosition` | loop invariants, subdivision identity, induction on the planes |
| C34-C44 | rational splines | built on the polynomial results, Leibniz rule for the derivatives; C35, C37 (large orders), C43 refuted |
| C45-C49 | base64 on bytes, memory after the vector explicit | loop invariants, bit arithmetic; C46, C47, C48 refuted |
| C50-C52 | AlgoDiffType | `derivable_pt_lim` and induction on expressions; C50 refuted for pow(0,0), C52 refuted |
| C53 | IntPower with `int` temporary | induction; refuted for unsigned and 64-bit types, with the exact condition for 32- and 64-bit types |
| C54 | IndexListSort | insertion sort as `std::stable_sort`, uniqueness of the result |
| C55-C57 | Logger as a state machine over console/files | induction on histories; C55, C57 refuted |
| C58 | Point | componentwise |
| C62-C64 | scalar branches (`ModelScalar.v`) | equal to the one-dimensional point versions, then C12, C25-C31, C44, C61 |
| C65 | `EuclidianNorm` | Cauchy-Schwarz by induction on the dimension |
| C66 | `operator/` of integral points | refuted; exact result for every divisor |
| C67 | splines over `AlgoDiffType` (`ModelADSpline.v`) | relational parametricity of the modelled functions in the number type, then C09, C10, C15 |
| C68 | `Base64::Decode` of arbitrary text | exact result per group of four characters; refuted (writes behind the vector, invalid characters accepted) |
| C69 | `WeightedControlPoint`, `Weight` | from C03 |
| C70 | nested `AlgoDiffType` (`SpecNested.v`) | induction on expressions, the inner numbers by C50; refuted for negative bases of pow |
| C71, C72, C73 | `Evaluate`, `BasisFunctions`, `ForwardEvaluate`, rational `Evaluate` in rounded arithmetic (`ModelRound.v`) | what Evaluate computes operation by operation (`ProofCasteljau.v`), error calculus `Er`/`Sr` (`ProofRoundEval.v`) |
| C101 | `Evaluate`, `ForwardEvaluate`, rational `Evaluate` when the compiler may contract multiplications and additions (`ModelFma.v`) | the functions on trees of operations; all values of a tree keep the error of C71-C73 (`ProofFma.v`) |
| C81, C82, C83 | `OrderElevate`, `spline_add`, `spline_add_assign`, `spline_sub_assign`, `SplitAtPosition`, `DerivativeWRT` in rounded arithmetic | what the functions compute operation by operation (`ProofRaw.v`), the error calculus of C71 (`ProofRoundOps.v`) |
| C84 | `SplitAtPosition`, `SplitAtPositions`, `Evaluate` without laws of arithmetic (`SpecSeam.v`) | `ProofRaw.v`, `ProofSeam.v`; at 0 and 1 de Casteljau returns representable end points unchanged |
| C85, C86, C87 | `spline_mul`, `RaisePower`, `Compose`, `ComposeSensitivity` in rounded arithmetic (`ModelRoundMul.v`) | what the product computes operation by operation (`ProofRawMul.v`); all terms are products of non-negative ratios with the factors, so the error is relative to the product of the absolute values (`ProofRoundMul.v`); two runs in lockstep (`ProofRoundCompose.v`) |
| C89, C90, C91 | `Evaluate`, `SplitAtPosition`, `OrderElevate` with overflow and gradual underflow (`ModelIEEE.v`) | a rounded convex combination of finite numbers does not exceed the largest finite number (`ProofIEEE.v`), relative and absolute errors step by step, two runs in lockstep (`ProofIEEEEval.v`) |
| C98 | rational `Evaluate` with overflow and gradual underflow (`ModelIEEERat.v`, `SpecIEEERat.v`) | C89 for numerator and weight; a computed weight that keeps its digits has an inverse that does (`ClaimsIEEERat.v`) |
| C102 | `BasisFunctions`, `ForwardEvaluate` with overflow and gradual underflow (`ModelIEEEFwd.v`, `SpecIEEEFwd.v`) | error calculus with an absolute part per factor (`ProofIEEEFwd.v`); the counterexamples are computed in dyadic arithmetic that is proved to be the only result of every rounding to nearest (`ProofIEEERun.v`) |
| C99, C100 | every operation on splines over `AlgoDiffType` (`ModelADOps.v`, `SpecADOps.v`) | relational parametricity of the operations (`ProofParamOps.v`, `ProofParamRat.v`), once from `AlgoDiffType` to functions of the variables and once from those to plain numbers (`ProofADOps.v`) |
| C92, C93, C94, C95, C96 | `R_SplitAtPosition`, `R_OrderElevate`, `R_mul`, `R_add`, `R_sub` (and the assignments), `Compose_RP` in rounded arithmetic (`ModelRoundRat.v`, `SpecRoundRat.v`) | numerator and weights are carried in lockstep; with positive weights both have errors relative to the weights, so the quotient is accurate (`ProofRoundRat.v`, `ProofRoundRat2.v`, `ProofRoundRat3.v`) |
| C97 | `R_SplitAtPosition`, `R_SplitAtPositions` without laws of arithmetic (`SpecSeamRat.v`) | the rational loop runs the two polynomial loops side by side; C84 |
| C88 | `toString`, `operator<<` on a stream with its format state (`ModelText.v`) | what the loop writes; a comma or bracket ends a field |
| C74, C75 | two call sequences of `operator+`, `operator*`, `RaisePower`, `DerivativeWRT`, ... return the same spline | `isv`: a spline of known degrees and values is unique (`ProofLaws.v`, `ProofUnique.v`); mixed derivatives are unique (`ProofLawsReal.v`) |
| C76 | hulls (`SpecHull.v`) of elevated, split and composed splines | matrices of non-negative coefficients whose rows sum to one (`ProofHull.v`) |
| C77, C78 | two call sequences of `Compose`, `OrderElevate`, `SplitAtPosition`, ... return the same spline | `isv`, as for C74 |
| C79 | values of `BernsteinEvaluate(Derivative)` sum to one/zero and stay below an envelope | sums; `sqrt`, `PI`, `exp` of the standard library |
| C80 | example program (`ModelExample.v`) over the real numbers | bilinear rectangles; rational quadratic arcs by `atan` and the intermediate angle; C30 |
| C103 | the constructors, `UpdateDegrees`, the index conversions and `operator*` with 64-bit sizes, `int` degrees in the product and `unsigned int` arguments of `choose` (`ModelSize.v`) | reduction modulo 2^64 commutes with sums and products; runs that stay in range are the unbounded runs (`ProofSize.v`) |
| C104 | `FitIntoUnitCube`, `FitsIntoUnitCube` and the operations that keep a spline in the unit cube, in rounded arithmetic (`ModelUnit.v`, `SpecUnit.v`) | rounding is monotone; x + (1 - x) and w * (1/w) round to at most 1 (`ProofUnit.v`); every step (1-x)a + xb keeps the relation "weighted point below weight" (`ProofUnit2.v`, `ProofUnit3.v`) |
| C105 | `Evaluate`, both `SplitAtPosition`, `OrderElevate` and the corners over the real numbers: first and second differences of the control net (`SpecNet.v`) | differences commute with de Casteljau steps and elevation up to a factor (`ProofNet.v`); discrete Taylor bound and the second moment of the Bernstein polynomials (`ProofNet2.v`, `ProofNet3.v`) |
| C106 | the functions with assertions, or calling such functions, once more without them (`ModelRelease.v`); `obeys` (`SpecRelease.v`) | monadic simulation, one lemma per function (`ProofRelease.v`); for too few control points: the first sweep of de Casteljau's algorithm reads every index (`ProofRelease2.v`) |
| C107 | `BernsteinEvaluateDerivative`, `BasisFunctionsDerivatives`, `EvaluateDerivative` in rounded arithmetic (`SpecRoundDeriv.v`) | the error calculus of C71 with the same sums of absolute values in place of the derivatives, whose total is 2^k n!/(n-k)! (`ProofRoundDeriv.v`) |
| C108 | evaluation, subdivision, elevation, sums, derivatives, powers and composition with 64-bit sizes (`ModelSize2.v`) | by simulation: as long as every run with unbounded sizes touches only indices of vectors shorter than 2^64, reductions modulo 2^64 change nothing (`ProofSize2.v`, `ProofSize3.v`) |
| C109 | monotone and convex control nets, changes of sign of the spline and of its net (`SpecShape.v`) | the first from the bounds of C105, which hold for every sublinear function of steps and bends, not only for seminorms; the second from the largest parameter down: the control points of the part left of x change sign no more often than those of the whole, and end in the value at x (`ProofShape.v`, `ProofShape2.v`) |
| C110 | functions that change an object in place return the object afterwards together with the outcome (`ModelFail.v`); only resize() throws, and it leaves the vector alone | refuted; exact object after the exception, and how UpdateDegrees repairs it (`ProofFail.v`) |
| C111 | `OrderElevateAlongParametricDimension`, `+`, `+=`, `-=`, `SplitAtPosition`, `DerivativeWRTParametricDimension` when the compiler may contract multiplications and additions (`ModelFmaOps.v`); trees are kept across stores, so more contractions are allowed than a compiler makes | all values of a tree keep the bounds of C81-C83 (`ProofFmaOps.v`) |
| C112 | the rational class with 64-bit sizes (`ModelSize3.v`) | the same simulation, with the sizes of intermediate numerators and weights bounded by the result (`ProofSize4.v`) |
| C113 | basis functions and evaluated derivatives with 64-bit sizes (`ModelSize4.v`) | the same simulation (`ProofSize5.v`); the number of derivatives is the product of the orders plus one, modulo 2^64 |
| C114 | `Compose_PR`, `ComposeSensitivity_PR`, `Compose_RR`, `ComposeSensitivity_RR`, `ComposeSensitivity_RP` in rounded arithmetic (`ModelRoundRat2.v`) | as C96, but the numerators are sums of products with the complement of the inner numerators, and the denominator is a power of the inner weights (`ProofRoundRat4.v`): both have errors relative to the exact denominator, because values on the unit box determine the coefficients (`ProofRoundRat5.v`) |
| C115 | `R_DerivativeWRT` of order one in rounded arithmetic (`ModelRoundRat3.v`) | the error is absolute and uses bounds m and W of the weights, since the difference of the two products cancels; compared with the partial derivative of the real function, not with the exact run of the model; orders above one in rounded arithmetic are not treated |
| C116 | `SplitAtPositions`, `R_SplitAtPositions` in rounded arithmetic (`ModelRound.v`, `ModelRoundRat.v`, `ModelRoundSplit.v`) | the rest that is cut again is inexact, and so is the relative position; the cuts in the statement are the real ones, with their distance from the planes bounded. For rational splines only the comparison at the cuts is stated, since moving a parameter costs the range of the weights |
| C117 | `SplitAtPositions` with bounded exponents (`ModelIEEE.v`, `ModelIEEESplit.v`) | as C90 for every cut; the division for the relative position can underflow, which the bound of the cuts counts |
| C118 | `SplitAtPosition`, `SplitAtPositions` with bounded exponents (`ModelIEEE.v`, `ModelIEEESplit.v`) | any planes, also non-finite ones; infinities and NaN are one value whose comparisons are all false, which is right for NaN, and for infinities leads to the same exception as the range check |
| C119 | `R_SplitAtPositions` with bounded exponents (`ModelIEEESplitRat.v`) | as C117, for numerator and weight function together; the values of the parts are compared in exact arithmetic |
| C59, C60 | `==`, repeated elevation | decision procedure; uniqueness of Bernstein coefficients |

## Trusted base

* Coq's kernel (everything is re-checked by `coqchk`).
* The faithfulness of the hand-written model to the source.
* The axioms printed by `Print Assumptions`:

| theorems | axioms |
|----------|--------|
| C07_derivatives, C112_derivative_values, C113_derivative, C113_rational_derivative, C14_derivative_spline, C15_derivative, C37_evaluate_derivative_partial, C39_derivative_spline, C51_comparisons, C51_coherent, C71_magnitude, C71_gamma, C71_corners, C71_constant_inexact, C73_magnitude, C75_separated, C75_repeated, C75_linear, C75_elevation, C75_split, C75_product, C75_power, C75_chain, C79_sums, C79_quadratic, C80_tile, C80_tile_fits, C80_cross, C80_disjoint, C84_watertight, C84_pieces, C97_watertight, C97_pieces, C85_dot_is, C87_outside, C89_underflow, C89_outside, C89_limits, C98_factor, C101_corners, C101_plain, C101_plain_scalar, C101_rational_plain, C101_contractions, C101_line, C101_differs, C111_plain, C111_plain_scalar, C102_lost, C104_fits, C104_fits_scalar, C104_fit_flat, C104_fit_max_below, C104_rational_points_scalar, C104_rational_fits_scalar, C108_derivative_values, all of C109, all of C105 except C105_norms and C105_corners, C114_outside | `ClassicalDedekindReals.sig_forall_dec`, `FunctionalExtensionality.functional_extensionality_dep` |
| C50_exact_partial, C50_zero_pow_zero_refuted, C50_defined, C50_abs_corner, C52_nested_acos_refuted | the two above, `ClassicalDedekindReals.sig_not_dec`, `Classical_Prop.classic` |
| C79_envelope_refuted, C79_envelope_partial, C80_ring, C80_joins, C80_composition, C80_program | the same four |
| C67_evaluate, C67_evaluate_scalar, C67_forward_evaluate, C67_rational, C67_parameters, C67_control_points, C70_hessian_partial, C70_negative_pow_refuted, C71_evaluate, C71_evaluate_scalar, C71_rounding_exists, C72_basis, C72_forward, C72_forward_scalar, C72_agreement, C73_rational, C101_evaluate, C101_evaluate_scalar, C101_forward, C101_forward_scalar, C101_rational, all of C81, C82, C83, C85, C86, C87, C89, C90, C91, C92, C93, C94, C95, C96, C98, C99, C100, C102, C104, C107 and C111 except those of the first row, namely C111_plain, C111_plain_scalar, C85_dot_is, C87_outside, C89_underflow, C89_outside, C89_limits, C98_factor, C102_lost and the six of C104, and C89_formats, C98_formats, C99_dot_is and C102_formats (which need none), C114_polynomial, C114_polynomial_scalar, C114_rational, C114_rational_scalar, C114_sensitivity, C114_rational_sensitivity, C114_polynomial_inner_sensitivity, C115_derivative, C115_derivative_scalar, C116_splits, C116_splits_scalar, C116_planes, C116_planes_scalar, C116_rational, C116_rational_scalar, C116_spurious, C117_splits, C117_splits_scalar, C117_planes, C117_planes_scalar, C118_split, C118_split_scalar, C118_splits, C118_splits_scalar, C119_rational, C119_rational_scalar | the same four as C50 |
| C65_norm, C65_scale, C65_triangle, C65_cauchy_schwarz, C80_few_segments, C105_norms, C105_corners | `sig_forall_dec`, `sig_not_dec`, `functional_extensionality_dep` |
| C106_ad, C106_ad_longer, C106_ad_input | `sig_forall_dec` (through the literal 1 of the scalar type) |
| C106_ad_shorter | the same four as C50 |
| all others | none ("Closed under the global context") |

All of them belong to the standard library's real numbers.  `coqchk` lists, in
addition, the opaque constants of `Coq.Reals.Rdefinitions` and of
`Coq.ssr.ssrunder`, which the standard library implements inside sealed modules
and which occur in files of the standard library that are loaded.

## Modelled and not modelled

Modelled, with line references beside each definition:

* `src/bezier_spline.hpp/.inc`: all constructors, index conversions, both
  `ControlPoint` versions (reading and writing), elevation, derivative splines,
  evaluation (both algorithms), basis functions and their derivatives, all
  operators, `RaisePower`, `ExtractDimension`, corners, unit cube functions,
  composition and its sensitivities, splitting; point-valued and scalar-valued branches.
* `src/rational_bezier_spline.hpp/.inc`: the same operations.
* `src/point.hpp`: arithmetic, scalar product, norms, textual output; division also for integral coordinates.
* `src/utils`: binomial table, Bernstein polynomials, `RecursiveCombine`,
  `IntPower`, `IndexListSort`, `Base64`, `AlgoDiffType`, `Logger`.
* `example/Microstructure/microstructure_build.cpp` (which does not compile as it is; see `ModelExample.v`).

Simplifications that matter:

* Scalars are exact (a field, or the real numbers), except in C71-C73, C81-C87, C92-C97, C104, C107 and C114-C116, where every
  operation is rounded to nearest, with unbounded exponents and without fused
  operations (C101 allows them in the evaluation functions, C111 in elevation, sums, subdivision and derivatives), and in C89-C91, C98, C102 and C117-C119, where the exponents are bounded too (infinities and
  NaN are one value, zero has no sign).  Elsewhere there is no overflow to infinity,
  no underflow, no NaN; a division by zero is the outcome `NonFinite`.
* Assertions are active (debug build), except in C106, which treats a build with `NDEBUG`.
* `std::size_t` sizes are unbounded, except where the source narrows them or
  where an unsigned difference can wrap (noted at the definitions), and in C103, C108, C112 and C113 (which
  also narrow the arguments of `choose` to `unsigned int`), which
  show for the constructors, the index conversions and the operations of both classes when this
  makes no difference (in compositions the vectors of points and of weights have the same maximal size).
* Mixed scalar types (`decltype(a * b)`) are one scalar type; the product of two
  control-point types is a parameter of the spline product.
* `parametric_dimension` is the length of the degree list and must not be zero.
* `std::stable_sort` is insertion sort; C54 shows that every correct stable sort
  returns the same list.
* `&v[0]` of an empty vector (Base64) is taken to be harmless.
* In the nested branches of `acos`/`asin` the literal `1` is read as `1.`.
* The logger's files: no buffering, opening always succeeds.

Not modelled:

* `Compose(std::vector<...>)` (`bezier_spline.inc:1036-1077`), which does not compile when instantiated.
* `noexcept`/`constexpr` evaluation, allocation failure, move semantics (a
  moved-from spline is not used again by the library).
* Type traits, CMake files and tools.  The unit tests are no part of the model; those with
  fixed inputs are replayed on it in `PropertiesTests.v`.
* Threads: the library has no concurrency; concurrent use of the logger is not modelled.
