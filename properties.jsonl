{"id": "C01", "title": "Control-point index conversions are mutually inverse", "statement": "For a spline of any parametric dimension and any degrees, LocalToGlobalIndex and GlobalToLocalIndex are inverse bijections between the scalar positions 0..GetNumberOfControlPoints()-1 and the multi-indices with every entry <= the degree in that direction; the scalar position varies fastest in the first direction.", "quantifier": "every parametric dimension >= 1, every degree array, every position and every multi-index in range", "why_tests_cant": "Tests exercise a handful of degree arrays; the mixed-radix arithmetic must be right for every degree array and every dimension.", "anchors": ["src/bezier_spline.inc:LocalToGlobalIndex", "src/bezier_spline.inc:GlobalToLocalIndex", "src/bezier_spline.inc:UpdateIndexOffsets_"]}
{"id": "C02", "title": "Every operation leaves a structurally consistent spline", "statement": "Constructing a spline, or changing/deriving one with UpdateDegrees, OrderElevateAlongParametricDimension, operator+=, operator-=, *=, unary -, + - * between splines, RaisePower, DerivativeWRTParametricDimension, Compose, SplitAtPosition, always yields a spline whose control-point vector has exactly prod(degree_k+1) entries, whose reported number of control points is that value and whose index offsets match its degrees.", "quantifier": "every finite sequence of operations starting from any constructed spline", "why_tests_cant": "The invariant has to survive arbitrary histories of mutations; tests run a few fixed sequences.", "anchors": ["src/bezier_spline.hpp:BezierSpline", "src/bezier_spline.hpp:UpdateDegrees", "src/bezier_spline.inc"]}
{"id": "C03", "title": "Both ways of addressing a control point agree", "statement": "ControlPoint(i,j,...) with separate arguments and ControlPoint(std::array) return the same control point, for reading and for writing, as long as the spline has at most 2^32 control points, and a write changes no other control point.", "quantifier": "every spline, every in-range multi-index, every written value", "why_tests_cant": "Needs all dimensions and degrees, and the 32-bit accumulator boundary is out of reach of a test.", "anchors": ["src/bezier_spline.inc:ControlPoint"]}
{"id": "C04", "title": "Binomial lookup table is correct", "statement": "FastBinomialCoefficient::choose(n,i) returns the mathematical binomial coefficient for all i <= n < MAX_BINOMIAL_DEGREE, for the default table size and for every configured table size up to 68; no entry overflows the 64-bit type.", "quantifier": "every table size <= 68 and all i <= n below it", "why_tests_cant": "The table size is a build-time macro; each test binary fixes one value and samples few entries.", "anchors": ["src/utils/fastbinomialcoefficient.hpp:choose", "src/utils/binomialcoefficientlookuptablecreator.hpp:calculate_table"]}
{"id": "C05", "title": "BernsteinPolynomial::Evaluate returns the Bernstein basis", "statement": "For every degree p below the table size and every parameter value t, Evaluate(p,t) returns exactly p+1 values, entry i being C(p,i) t^i (1-t)^(p-i) (exact arithmetic).", "quantifier": "every degree below the table size, every parameter value (including outside [0,1])", "why_tests_cant": "Tests compare at a few random parameters up to rounding tolerance.", "anchors": ["src/utils/algorithms/bernstein_polynomial.hpp:Evaluate"]}
{"id": "C06", "title": "Basis functions form a non-negative partition of unity", "statement": "BasisFunctions(t) of a polynomial spline has one entry per control point, the entries sum to 1 for every t, and all are >= 0 when every coordinate of t lies in [0,1].", "quantifier": "every spline, every parameter point", "why_tests_cant": "A statement over the whole parameter cube and all degrees/dimensions.", "anchors": ["src/bezier_spline.inc:BasisFunctions", "src/utils/algorithms/recursive_combine.hpp:RecursiveCombine"]}
{"id": "C07", "title": "Bernstein derivatives are the derivatives", "statement": "BernsteinPolynomial::EvaluateDerivative(p,t,k) returns p+1 values; entry i is the k-th derivative with respect to t of the i-th Bernstein polynomial of degree p, for every k (all zeros for k>p).", "quantifier": "every degree below the table size, every order, every real parameter", "why_tests_cant": "Tests check a few orders against finite formulae at random points.", "anchors": ["src/utils/algorithms/bernstein_polynomial.hpp:EvaluateDerivative"]}
{"id": "C08", "title": "RecursiveCombine is the tensor product in storage order", "statement": "RecursiveCombine(factors) returns the products factors[0][i0]*factors[1][i1]*... listed with i0 varying fastest, i.e. in the same order in which splines store control points; its size is the product of the sizes.", "quantifier": "every number of factor vectors >= 1 of any lengths", "why_tests_cant": "Compile-time recursion over an arbitrary dimension.", "anchors": ["src/utils/algorithms/recursive_combine.hpp:RecursiveCombine_"]}
{"id": "C09", "title": "Evaluate computes the Bezier map", "statement": "Evaluate(t) (in-place de Casteljau) returns sum over all control points of the tensor-product Bernstein value times the control point, never reads or writes outside its buffers, and leaves the spline unchanged.", "quantifier": "every consistent spline of any dimension/degrees and any control-point type, every parameter point", "why_tests_cant": "In-place index arithmetic must be right for all strides; tests cover dimension <= 3 and compare approximately.", "anchors": ["src/bezier_spline.inc:Evaluate"]}
{"id": "C10", "title": "Evaluate and ForwardEvaluate agree", "statement": "For a polynomial spline with degrees below the table size, ForwardEvaluate(t) equals Evaluate(t) (exact arithmetic).", "quantifier": "every spline, every parameter point", "why_tests_cant": "Two different algorithms must coincide on all inputs.", "anchors": ["src/bezier_spline.inc:Evaluate", "src/bezier_spline.inc:ForwardEvaluate"]}
{"id": "C11", "title": "Corner interpolation", "statement": "Evaluating at a corner of the parameter cube (every coordinate 0 or 1) returns exactly the corresponding corner control point.", "quantifier": "every spline, every one of the 2^d corners", "why_tests_cant": "d and the degrees are arbitrary.", "anchors": ["src/bezier_spline.inc:Evaluate"]}
{"id": "C12", "title": "Convex-hull / bounding-box property", "statement": "For parameters in [0,1]^d every coordinate of Evaluate(t) lies between the matching coordinates of MinimumCorner() and MaximumCorner().", "quantifier": "every spline, every parameter point of the cube", "why_tests_cant": "Universal over a continuum of parameters; this is what makes FitsIntoUnitCube a sound precondition check for Compose.", "anchors": ["src/bezier_spline.inc:MaximumCorner", "src/bezier_spline.inc:MinimumCorner", "src/bezier_spline.inc:Evaluate"]}
{"id": "C13", "title": "Order elevation preserves the geometry", "statement": "OrderElevateAlongParametricDimension(k) raises the degree of direction k by one, leaves the other degrees alone, evaluates to the same point for every parameter, and the in-place back-to-front rewrite never reads an already overwritten or out-of-range control point (splines below 2^31 points).", "quantifier": "every spline, every direction, every parameter point", "why_tests_cant": "In-place overlapping copy with computed strides; tests sample two configurations.", "anchors": ["src/bezier_spline.inc:OrderElevateAlongParametricDimension"]}
{"id": "C14", "title": "Derivative splines are derivatives", "statement": "DerivativeWRTParametricDimension(orders) with orders <= degrees returns a spline of degrees minus orders whose value at every t is the mixed partial derivative of the original spline.", "quantifier": "every spline, every admissible order array, every real parameter point", "why_tests_cant": "Derivative identity for all inputs; tests check one fixed line and random points to float tolerance.", "anchors": ["src/bezier_spline.inc:DerivativeWRTParametricDimension"]}
{"id": "C15", "title": "EvaluateDerivative agrees with the derivative spline", "statement": "EvaluateDerivative(t, orders) equals DerivativeWRTParametricDimension(orders).Evaluate(t) whenever orders <= degrees, and is zero as soon as one order exceeds the degree.", "quantifier": "every spline, every order array, every parameter point", "why_tests_cant": "Two independent algorithms must agree everywhere.", "anchors": ["src/bezier_spline.inc:EvaluateDerivative", "src/bezier_spline.inc:DerivativeWRTParametricDimension"]}
{"id": "C16", "title": "Asking for a derivative spline beyond the degree is handled", "statement": "DerivativeWRTParametricDimension with an order larger than the degree returns a valid spline (the zero spline) rather than corrupting memory.", "quantifier": "every spline and order array with some order > degree", "why_tests_cant": "The unsigned subtraction of the degrees only misbehaves outside the tested range.", "anchors": ["src/bezier_spline.inc:DerivativeWRTParametricDimension"]}
{"id": "C17", "title": "operator+ is pointwise addition", "statement": "a+b terminates for all degree combinations, has degree max(deg a, deg b) in each direction, and evaluates to Evaluate_a(t)+Evaluate_b(t) for every t; neither operand changes.", "quantifier": "every pair of splines of the same parametric dimension, every parameter point", "why_tests_cant": "All relative degree patterns per direction (including mixed larger/smaller) have to work.", "anchors": ["src/bezier_spline.inc:operator+"]}
{"id": "C18", "title": "operator+= and operator-= are pointwise and consistent with operator+", "statement": "a+=b / a-=b terminate for all degree combinations and leave in a a spline of the componentwise maximal degrees that evaluates to the sum / difference; a+=b gives the same spline as a+b.", "quantifier": "every pair of splines, every parameter point", "why_tests_cant": "Same as C17.", "anchors": ["src/bezier_spline.inc:operator+=", "src/bezier_spline.inc:operator-="]}
{"id": "C19", "title": "operator- terminates and is pointwise subtraction", "statement": "a-b returns, for all degree combinations, a spline evaluating to the difference of the two splines.", "quantifier": "every pair of splines, every parameter point", "why_tests_cant": "Termination depends on the relative degrees; a test that hits the bad case hangs instead of failing.", "anchors": ["src/bezier_spline.inc:operator-"]}
{"id": "C20", "title": "Spline product is the pointwise product", "statement": "a*b has degrees deg a + deg b and evaluates to the product of the two values for every t (scalar*scalar, point*scalar, scalar*point and dot product of points), provided the summed degrees are below the table size.", "quantifier": "every pair of splines, every parameter point, every supported operand type combination", "why_tests_cant": "Elber's combinatorial formula has to hold for all degrees and dimensions.", "anchors": ["src/bezier_spline.inc:operator*", "src/bezier_spline.inc:CombineControlPointsForProduct_"]}
{"id": "C21", "title": "Scalar scaling, shifting and negation act pointwise", "statement": "s*=c, s*c, c*s, s+=p, s+p, p+s, s-=p, s-p, p-s and -s change the value at every parameter exactly by the same operation and leave the degrees unchanged (arguments not aliasing the spline's own storage).", "quantifier": "every spline, scalar, point and parameter", "why_tests_cant": "Affine invariance over all parameters.", "anchors": ["src/bezier_spline.inc:operator*=", "src/bezier_spline.inc:operator+=", "src/bezier_spline.inc:operator-", "src/bezier_spline.hpp:operator-"]}
{"id": "C22", "title": "Mutating operators are safe when the argument aliases the object's own data", "statement": "s += s.control_points[i], s -= s.control_points[i], s *= s.control_points[i] and p *= p[i] use the value the argument had before the call.", "quantifier": "every spline/point and every index i", "why_tests_cant": "Aliased calls are legal C++ and silently give wrong numbers only when the aliased entry is not the last one.", "anchors": ["src/bezier_spline.inc:operator+=", "src/point.hpp:operator*="]}
{"id": "C23", "title": "RaisePower is the pointwise power", "statement": "For a scalar spline, RaisePower(n) has n times the degrees and evaluates to the n-th power of the value for every n>=0 (constant 1 for n=0), as long as n*degree stays below the table size.", "quantifier": "every scalar spline, every exponent, every parameter point", "why_tests_cant": "Recursive squaring over unbounded exponents.", "anchors": ["src/bezier_spline.inc:RaisePower"]}
{"id": "C24", "title": "ExtractDimension selects a coordinate", "statement": "ExtractDimension(k) evaluates to coordinate k of the original spline for every parameter; an out-of-range k raises an exception and never returns a spline.", "quantifier": "every spline, every k, every parameter", "why_tests_cant": "Holds for all parameters and all invalid k.", "anchors": ["src/bezier_spline.inc:ExtractDimension"]}
{"id": "C25", "title": "MinimumCorner/MaximumCorner are the tight bounds and FitsIntoUnitCube is exact", "statement": "Each coordinate of MinimumCorner/MaximumCorner is attained by some control point and bounds all; FitsIntoUnitCube() is true exactly when every coordinate of every control point lies in [0,1]; an empty spline raises an exception.", "quantifier": "every spline", "why_tests_cant": "All sizes and values.", "anchors": ["src/bezier_spline.inc:MaximumCorner", "src/bezier_spline.inc:MinimumCorner", "src/bezier_spline.inc:FitsIntoUnitCube"]}
{"id": "C26", "title": "FitIntoUnitCube maps into and onto the unit cube", "statement": "After FitIntoUnitCube() every control-point coordinate lies in [0,1], the bounds 0 and 1 are attained in every direction and FitsIntoUnitCube() holds, provided no coordinate direction is degenerate; the map applied is the same affine map for all control points.", "quantifier": "every spline with positive extent in each coordinate", "why_tests_cant": "Tests use one surface.", "anchors": ["src/bezier_spline.inc:FitIntoUnitCube", "src/bezier_spline.inc:TransposeAndScale"]}
{"id": "C27", "title": "FitIntoUnitCube on flat splines", "statement": "FitIntoUnitCube() leaves finite control points in [0,1] even if the spline is flat (all control points share a coordinate value).", "quantifier": "every spline with at least one degenerate coordinate", "why_tests_cant": "Only degenerate inputs expose the division by zero.", "anchors": ["src/bezier_spline.inc:FitIntoUnitCube"]}
{"id": "C28", "title": "Composition of polynomial splines", "statement": "outer.Compose(inner) returns a spline of degrees sum(outer degrees)*inner degree which evaluates at every t to outer evaluated at inner(t), whenever inner fits into the unit cube and the degrees stay below the table size; if inner does not fit an exception is raised.", "quantifier": "every outer/inner pair of any parametric dimensions, every parameter point", "why_tests_cant": "Algebraic identity over all inputs; tests compare a few random points.", "anchors": ["src/bezier_spline.inc:Compose", "src/bezier_spline.inc:ComposeNumeratorHelper"]}
{"id": "C29", "title": "Composition sensitivities are the derivatives w.r.t. outer control points", "statement": "ComposeSensitivity returns one scalar spline per outer control point; moving outer control point i by delta changes Compose at every t by delta times the value of sensitivity i (exactly, the dependence is linear), and sum_i sensitivity_i * P_i is the composition.", "quantifier": "every outer/inner pair, every control point, every displacement, every parameter", "why_tests_cant": "Tests use finite differences at one configuration.", "anchors": ["src/bezier_spline.inc:ComposeSensitivity", "src/bezier_spline.inc:ComposeNumeratorHelper"]}
{"id": "C30", "title": "Composition with rational splines", "statement": "polynomial(rational), rational(polynomial) and rational(rational) Compose evaluate to outer(inner(t)) at every t where the weight functions do not vanish.", "quantifier": "all pairs, all parameters with non-vanishing denominators", "why_tests_cant": "The cancellation of denominators must hold identically.", "anchors": ["src/bezier_spline.inc:Compose", "src/bezier_spline.inc:ComposeDenominatorSpline", "src/rational_bezier_spline.hpp:Compose"]}
{"id": "C31", "title": "Every Compose overload rejects inner splines outside the unit cube", "statement": "Compose/ComposeSensitivity raise an exception whenever the inner spline has a control point outside the unit cube, for all four polynomial/rational combinations.", "quantifier": "every outer/inner pair", "why_tests_cant": "Requires checking every overload on all ill-posed inputs.", "anchors": ["src/rational_bezier_spline.hpp:Compose", "src/rational_bezier_spline.inc:ComposeSensitivity", "src/bezier_spline.inc:Compose"]}
{"id": "C32", "title": "Splitting reproduces the spline on both halves", "statement": "SplitAtPosition(s,k) with 0<s<1 returns two splines of the same degrees; the first evaluates at t to the original with t_k replaced by s*t_k, the second to the original with t_k replaced by s+(1-s)*t_k. Any other s raises an exception.", "quantifier": "every spline, direction, split position, parameter point", "why_tests_cant": "In-place de Casteljau with strides for all dimensions.", "anchors": ["src/bezier_spline.inc:SplitAtPosition"]}
{"id": "C33", "title": "Multi-split partitions the parameter range", "statement": "SplitAtPosition(planes,k) with strictly increasing planes in (0,1) returns planes.size()+1 splines; the i-th reproduces the original on [plane_{i-1},plane_i]; an empty list returns the spline itself; unsorted, repeated or out-of-range planes raise an exception.", "quantifier": "every spline, every list of split positions of any length", "why_tests_cant": "Unbounded list length; relative positions are recomputed for each remaining part.", "anchors": ["src/bezier_spline.inc:SplitAtPosition"]}
{"id": "C34", "title": "Rational Evaluate is the weighted quotient", "statement": "A rational spline built from control points and weights evaluates to sum(w_i B_i P_i)/sum(w_i B_i) wherever the denominator is non-zero; converting a polynomial spline to a rational one does not change any value.", "quantifier": "every rational spline, every parameter point", "why_tests_cant": "All degrees, dimensions, weights.", "anchors": ["src/rational_bezier_spline.inc:Evaluate", "src/rational_bezier_spline.hpp:RationalBezierSpline"]}
{"id": "C35", "title": "Rational ForwardEvaluate agrees with Evaluate", "statement": "ForwardEvaluate(t) of a rational spline equals Evaluate(t).", "quantifier": "every rational spline, every parameter point", "why_tests_cant": "The unit test only checks a symmetry that an unnormalised result also satisfies.", "anchors": ["src/rational_bezier_spline.inc:ForwardEvaluate"]}
{"id": "C36", "title": "Rational basis functions", "statement": "Rational BasisFunctions(t) sum to one, are non-negative on the cube for positive weights, and sum_i BasisFunctions[i]*P_i is Evaluate(t).", "quantifier": "every rational spline with non-vanishing weight function, every parameter", "why_tests_cant": "Universal over parameters and weights.", "anchors": ["src/rational_bezier_spline.inc:BasisFunctions", "src/rational_bezier_spline.inc:UnweightedBasisFunctions"]}
{"id": "C37", "title": "Rational derivatives are derivatives", "statement": "EvaluateDerivative(t, orders) of a rational spline is the mixed partial derivative of Evaluate at t for every order array, wherever the weight function is non-zero.", "quantifier": "every rational spline, every order array, every parameter", "why_tests_cant": "General Leibniz recursion over multi-indices with flattened storage; tests check three order arrays.", "anchors": ["src/rational_bezier_spline.inc:EvaluateDerivative"]}
{"id": "C38", "title": "Rational basis-function derivatives are consistent", "statement": "sum_i BasisFunctionsDerivatives(t,orders)[i]*P_i equals EvaluateDerivative(t,orders).", "quantifier": "every rational spline, order array and parameter", "why_tests_cant": "Two separate recursions must agree.", "anchors": ["src/rational_bezier_spline.inc:BasisFunctionsDerivatives"]}
{"id": "C39", "title": "Rational derivative spline is the derivative", "statement": "DerivativeWRTParametricDimension(orders) of a rational spline evaluates to the mixed partial derivative and keeps numerator and denominator compatible, when every differentiated direction has degree >= 1.", "quantifier": "every rational spline, order array, parameter", "why_tests_cant": "Iterated quotient rule.", "anchors": ["src/rational_bezier_spline.inc:DerivativeWRTParametricDimension"]}
{"id": "C40", "title": "Rational +, -, * are pointwise", "statement": "The sum, difference and product of rational splines evaluate to the sum, difference and product of values wherever both weight functions are non-zero, whether or not the weight functions are equal; += and -= agree with + and -.", "quantifier": "every pair of rational splines, every parameter", "why_tests_cant": "Both code paths (equal/different weights) for all degrees.", "anchors": ["src/rational_bezier_spline.inc:operator+", "src/rational_bezier_spline.inc:operator-", "src/rational_bezier_spline.inc:operator*", "src/rational_bezier_spline.inc:operator+="]}
{"id": "C41", "title": "Rational scaling/shifting acts pointwise", "statement": "r*=c, r+=p, r-=p, -r act on the evaluated value exactly like on a point, leaving weights unchanged.", "quantifier": "every rational spline, scalar, point, parameter", "why_tests_cant": "Shift must be weighted per control point.", "anchors": ["src/rational_bezier_spline.inc:operator+=", "src/rational_bezier_spline.inc:operator-=", "src/rational_bezier_spline.inc:operator*="]}
{"id": "C42", "title": "Rational refinement preserves the geometry", "statement": "OrderElevate and SplitAtPosition on rational splines preserve values like in the polynomial case and keep numerator/denominator degrees equal.", "quantifier": "every rational spline, direction, position, parameter", "why_tests_cant": "As C13/C32.", "anchors": ["src/rational_bezier_spline.inc:OrderElevateAlongParametricDimension", "src/rational_bezier_spline.inc:SplitAtPosition"]}
{"id": "C43", "title": "Rational ControlPoint(i,j,...) returns the addressed control point", "statement": "ControlPoint(i,j,...) with separate arguments on a rational spline returns the same point as ControlPoint(std::array).", "quantifier": "every rational spline, every in-range multi-index", "why_tests_cant": "The existing test only covers one parametric dimension.", "anchors": ["src/rational_bezier_spline.inc:ControlPoint"]}
{"id": "C44", "title": "Rational bounding corners", "statement": "With positive weights, Evaluate(t) on the cube lies between MinimumCorner() and MaximumCorner() of the (unweighted) control points; FitsIntoUnitCube is exact.", "quantifier": "every rational spline with positive weights, every parameter in the cube", "why_tests_cant": "Convexity over a continuum.", "anchors": ["src/rational_bezier_spline.inc:MinimumCorner", "src/rational_bezier_spline.inc:MaximumCorner", "src/rational_bezier_spline.inc:FitsIntoUnitCube"]}
{"id": "C45", "title": "Base64 round trip", "statement": "Decode<T>(Encode(v)) == v for every vector v of entries with sizeof(T) >= 3 (int, float, double, 64-bit), whatever bytes follow the vector in memory.", "quantifier": "every vector length and content, every entry size >= 3", "why_tests_cant": "All lengths modulo 3 and all byte values.", "anchors": ["src/utils/base64.hpp:Encode", "src/utils/base64.hpp:Decode"]}
{"id": "C46", "title": "Base64 encoding is standard Base64", "statement": "Encode returns 4*ceil(n/3) characters, all from the Base64 alphabet plus trailing '=' padding, and equals the RFC 4648 encoding of the bytes.", "quantifier": "every vector", "why_tests_cant": "All lengths and contents.", "anchors": ["src/utils/base64.hpp:Encode"]}
{"id": "C47", "title": "Base64 encoding reads only the vector's own bytes", "statement": "Encode never reads outside the data of its argument.", "quantifier": "every vector", "why_tests_cant": "The out-of-bounds read happens only for some lengths and is invisible without sanitizers.", "anchors": ["src/utils/base64.hpp:Encode"]}
{"id": "C48", "title": "Base64 round trip for 1- and 2-byte entry types", "statement": "Decode<T>(Encode(v)) == v for one- and two-byte types.", "quantifier": "every vector of char/short", "why_tests_cant": "Only wide types are tested.", "anchors": ["src/utils/base64.hpp:Decode"]}
{"id": "C49", "title": "Base64 round trip for points", "statement": "Decode<Point>(Encode(points)) returns the same points for every vector of points (scalars of at least 3 bytes). Decode<Point> of any string groups the decoded scalars into points in order, and its assertion fails if they do not fill the last point.", "quantifier": "every vector of points of every dimension >= 1", "why_tests_cant": "Reshaping for all dimensions and sizes.", "anchors": ["src/utils/base64.hpp:Encode", "src/utils/base64.hpp:Decode"]}
{"id": "C50", "title": "Algorithmic differentiation is exact", "statement": "Any expression built from AlgoDiffType inputs with + - * / (also with scalars), exp, log, log10, sqrt, pow, abs, sin, cos, tan, asin, acos, atan yields GetValue() = the real value and GetDerivatives()[i] = the partial derivative with respect to input i, wherever the expression is differentiable.", "quantifier": "every expression tree, every number of inputs, every input point in the domain of differentiability", "why_tests_cant": "Requires calculus over all expressions and inputs; tests check single operations at fixed points.", "anchors": ["src/utils/computational_differentiation/algo_diff_type.inc", "src/utils/computational_differentiation/algo_diff_type.hpp"]}
{"id": "C51", "title": "AlgoDiffType comparisons look at values only and are coherent", "statement": "The twelve comparison operators (ADT/ADT and scalar/ADT in both orders) return the comparison of the values, independent of the derivatives, and == is the negation of !=, < of >=, > of <=.", "quantifier": "all pairs of AlgoDiffType / scalars", "why_tests_cant": "All operand combinations; the definitions delegate to each other.", "anchors": ["src/utils/computational_differentiation/algo_diff_type.hpp:operator<", "src/utils/computational_differentiation/algo_diff_type.inc:operator<"]}
{"id": "C52", "title": "Nested AlgoDiffType (second derivatives) supports the same functions", "statement": "acos on a nested AlgoDiffType returns the arc cosine as value.", "quantifier": "every nested input", "why_tests_cant": "Nested types take a separate compile-time branch that no test instantiates.", "anchors": ["src/utils/computational_differentiation/algo_diff_type.inc:acos"]}
{"id": "C53", "title": "Integer power", "statement": "IntPower(b,n) equals b^n whenever b^n is representable in the argument type.", "quantifier": "every base and exponent >= 0 of each integral type", "why_tests_cant": "Overflow of the int temporary appears only for large 64-bit results.", "anchors": ["src/utils/algorithms/int_power.hpp:IntPower"]}
{"id": "C54", "title": "IndexListSort returns the stable sorting permutation", "statement": "IndexListSort(v) is a permutation of 0..v.size()-1 that lists v in non-decreasing order, equal elements in their original order; these three facts determine the result uniquely.", "quantifier": "every vector", "why_tests_cant": "All lengths and orders.", "anchors": ["src/utils/algorithms/sort.hpp:IndexListSort"]}
{"id": "C55", "title": "Log level filtering", "statement": "A message of a given severity reaches the console (resp. its log file) exactly when logging is compiled in and the corresponding bit is set in the current output level; SetOutputLevel with a list is equivalent to setting the bitwise or.", "quantifier": "every history of logger calls and every output level", "why_tests_cant": "All 2^9 levels and arbitrary call histories.", "anchors": ["src/utils/logger.hpp:SetOutputLevel_", "src/utils/logger.hpp:Warning_"]}
{"id": "C56", "title": "TerminatingError always raises", "statement": "Logger::TerminatingError raises an exception for every output level and compile configuration; no other logger function raises.", "quantifier": "every logger state", "why_tests_cant": "Library preconditions (split bounds, unit cube) rely on it in every logger state.", "anchors": ["src/utils/logger.hpp:TerminatingError_"]}
{"id": "C57", "title": "Log files keep everything that was written", "statement": "A message written to a log file stays in the file for the rest of the run.", "quantifier": "every history of logger calls, including histories where a TerminatingError exception was caught", "why_tests_cant": "Only histories that continue after a caught error reopen (and truncate) the files.", "anchors": ["src/utils/logger.hpp:init", "src/utils/logger.hpp:close"]}
{"id": "C58", "title": "Point arithmetic is componentwise vector arithmetic", "statement": "+, -, unary -, scalar * and /, scalar/point, the dot product and SquaredEuclidianNorm of Point act componentwise in every dimension, with dot product symmetric/bilinear and the squared norm non-negative and zero only for the zero point.", "quantifier": "every dimension and all coordinates", "why_tests_cant": "All dimensions.", "anchors": ["src/point.hpp:Point"]}
{"id": "C59", "title": "Spline equality", "statement": "operator== holds exactly when degrees and control points coincide; it is an equivalence and equal splines evaluate equally.", "quantifier": "all pairs of splines", "why_tests_cant": "Universal.", "anchors": ["src/bezier_spline.inc:operator=="]}
{"id": "C60", "title": "Order of elevation and repeated elevation do not matter", "statement": "Elevating along directions in any order and any number of times yields the same spline, depending only on how often each direction was elevated.", "quantifier": "every spline and every finite sequence of elevation directions", "why_tests_cant": "Arbitrary sequences.", "anchors": ["src/bezier_spline.inc:OrderElevateAlongParametricDimension"]}
{"id": "C61", "title": "Sensitivities of compositions with rational splines", "statement": "For polynomial(rational), rational(polynomial) and rational(rational), ComposeSensitivity returns one spline per control point of the outer spline; moving control point i by delta (with its weight unchanged) changes the composition by sensitivity_i(t)*delta, and the composition is the sum of sensitivity_i times control point i.", "quantifier": "all pairs, all parameters with non-vanishing denominators", "why_tests_cant": "Linear in the control points, identically in t.", "anchors": ["src/bezier_spline.inc:ComposeSensitivity", "src/rational_bezier_spline.inc:ComposeSensitivity"]}
{"id": "C62", "title": "Corners and unit interval of scalar-valued splines", "statement": "For scalar control points ExtractDimension(0) is the spline itself and any other dimension is rejected; the corners are the least and greatest control point and bound the values on the unit cube; FitsIntoUnitCube holds exactly when all control points are in [0,1]; FitIntoUnitCube is the increasing affine map onto [0,1] when the control points are not all equal and divides by zero otherwise.", "quantifier": "every scalar-valued polynomial spline", "why_tests_cant": "All dimensions, degrees and control points.", "anchors": ["src/bezier_spline.inc:ExtractDimension", "src/bezier_spline.inc:MaximumCorner", "src/bezier_spline.inc:MinimumCorner", "src/bezier_spline.inc:TransposeAndScale", "src/bezier_spline.inc:FitIntoUnitCube", "src/bezier_spline.inc:FitsIntoUnitCube"]}
{"id": "C63", "title": "Corners and unit interval of scalar-valued rational splines", "statement": "For scalar control points and non-zero weights the corners are the least and greatest unweighted control point, they bound the values on the unit cube when the weights are positive, and FitsIntoUnitCube holds exactly when all unweighted control points are in [0,1].", "quantifier": "every scalar-valued rational spline", "why_tests_cant": "All dimensions, degrees, control points and weights.", "anchors": ["src/rational_bezier_spline.inc:MaximumCorner", "src/rational_bezier_spline.inc:MinimumCorner", "src/rational_bezier_spline.inc:FitsIntoUnitCube"]}
{"id": "C64", "title": "Composition with a scalar-valued inner spline", "statement": "For an outer spline of one parametric dimension and a scalar-valued inner spline, each polynomial/rational combination of Compose evaluates to outer(inner(t)), ComposeSensitivity returns the derivative with respect to each outer control point, and (except for rational outer and inner) inner splines outside [0,1] are rejected.", "quantifier": "all pairs of splines and all parameters with non-vanishing denominators", "why_tests_cant": "Universal in degrees, control points, weights and parameters.", "anchors": ["src/bezier_spline.inc:Compose", "src/bezier_spline.inc:ComposeSensitivity", "src/rational_bezier_spline.inc:ComposeSensitivity"]}
{"id": "C65", "title": "EuclidianNorm is a norm", "statement": "EuclidianNorm is the non-negative square root of the sum of the squared coordinates; it vanishes only at the zero point, is absolutely homogeneous and satisfies the triangle inequality, and the scalar product satisfies the Cauchy-Schwarz inequality.", "quantifier": "every dimension and all real coordinates", "why_tests_cant": "All dimensions and coordinates.", "anchors": ["src/point.hpp:EuclidianNorm"]}
{"id": "C66", "title": "Division of a point by a scalar divides each coordinate, for integral coordinates", "statement": "For a Point with an integral BaseType, p / c multiplied by c gives p back whenever c divides every coordinate.", "quantifier": "every dimension, all coordinates and divisors", "why_tests_cant": "The reciprocal is computed in the integral type, so the result is zero for every divisor except 1 and -1.", "anchors": ["src/point.hpp:operator/="]}
{"id": "C67", "title": "Splines over AlgoDiffType carry exact gradients", "statement": "Evaluating a spline (Evaluate, ForwardEvaluate, rational Evaluate) whose control points, weights and parameters are AlgoDiffType numbers holding the value and gradient of functions returns the value and gradient of the evaluated spline as a function of the same variables; with the parameters as inputs this is the result of EvaluateDerivative, with the control points as inputs the basis functions.", "quantifier": "every spline, every number of variables, all differentiable dependences of control points, weights and parameters", "why_tests_cant": "Universal in the dimension, degrees, control points and number of derivatives.", "anchors": ["src/bezier_spline.inc:Evaluate", "src/bezier_spline.inc:ForwardEvaluate", "src/rational_bezier_spline.inc:Evaluate", "src/utils/computational_differentiation/algo_diff_type.inc:operator*"]}
{"id": "C68", "title": "Base64 decoding of arbitrary text", "statement": "For every text whose length is a multiple of four, Decode reads and writes only its own memory, rejects characters outside the Base64 alphabet and returns the bytes the text stands for; other lengths fail the assertion.", "quantifier": "every text and every entry size", "why_tests_cant": "All texts; the text may come from any source, e.g. a file.", "anchors": ["src/utils/base64.hpp:Decode"]}
{"id": "C69", "title": "Accessors of rational splines", "statement": "WeightedControlPoint and Weight (variadic and array versions) read the entry at the given index, writing through them changes exactly this entry and keeps the invariant, and ControlPoint is their quotient.", "quantifier": "every rational spline and every valid index", "why_tests_cant": "All dimensions, degrees and indices.", "anchors": ["src/rational_bezier_spline.inc:WeightedControlPoint", "src/rational_bezier_spline.inc:Weight", "src/rational_bezier_spline.inc:ControlPoint"]}
{"id": "C70", "title": "Nested AlgoDiffType numbers give exact second derivatives", "statement": "An expression computed with AlgoDiffType<AlgoDiffType<double, n>, n> inputs returns its value, its gradient (twice: as derivatives of the value and as values of the derivatives) and its matrix of second derivatives, wherever all operations in it are applied at points of differentiability.", "quantifier": "every expression in the operations of AlgoDiffType, every number of inputs and all input values", "why_tests_cant": "All expressions, numbers of inputs and values; includes compositions of all unary, binary and mixed operations.", "anchors": ["src/utils/computational_differentiation/algo_diff_type.inc", "src/utils/computational_differentiation/algo_diff_type.hpp"]}
{"id": "C71", "title": "Rounding error of Evaluate", "statement": "In binary arithmetic with p digits, round to nearest with any rule for ties and unbounded exponent, Evaluate at a parameter of the unit box differs from the exact value by at most ((1 + 2^-p)^(3 (sum of the degrees)) - 1) times the spline of the absolute coefficients; the latter is bounded by the largest absolute coefficient, the factor by 6 (sum of the degrees) 2^-p as long as this is at most 1. At the corners of the unit box the result is the corner control point exactly. Elsewhere exactness is lost: in double precision a constant line can evaluate to another number.", "quantifier": "every number of digits, rounding to nearest, dimension, degrees, control points and parameter of the unit box", "why_tests_cant": "Universal in the precision, the tie rule, the spline and the parameter.", "anchors": ["src/bezier_spline.inc:Evaluate"]}
{"id": "C72", "title": "Rounding error of the basis functions and ForwardEvaluate", "statement": "In the same arithmetic every computed basis function is between (1 - 2^-p)^K and (1 + 2^-p)^K times the exact one, K the sum of 2 degree + 4; ForwardEvaluate differs from the exact value by at most ((1 + 2^-p)^(K + N) - 1) times the spline of the absolute coefficients, N the number of control points; hence Evaluate and ForwardEvaluate agree up to the sum of both bounds.", "quantifier": "every number of digits, rounding to nearest, dimension, degrees in the binomial table, control points and parameter of the unit box", "why_tests_cant": "Universal in the precision, the tie rule, the spline and the parameter.", "anchors": ["src/bezier_spline.inc:BasisFunctions", "src/bezier_spline.inc:ForwardEvaluate", "src/utils/algorithms/bernstein_polynomial.hpp", "src/utils/algorithms/recursive_combine.hpp"]}
{"id": "C73", "title": "Rounding error of rational Evaluate", "statement": "In the same arithmetic, for positive weights and a parameter of the unit box, rational Evaluate never divides by zero and differs from the exact value by at most ((1 + 2^-p)^(K + 2) / (1 - 2^-p)^K - 1) times the quotient of the spline of the absolute weighted coefficients by the weight function, K three times the sum of the degrees; this quotient is bounded by the largest absolute coordinate of the control points.", "quantifier": "every number of digits, rounding to nearest, dimension, degrees, control points, positive weights and parameter of the unit box", "why_tests_cant": "Universal in the precision, the tie rule, the spline and the parameter.", "anchors": ["src/rational_bezier_spline.inc:Evaluate", "src/bezier_spline.inc:Evaluate", "src/point.hpp:operator/="]}
{"id": "C74", "title": "Ring laws of the spline operators", "statement": "The operators obey, control point by control point, the laws of a commutative ring acting on a module: operator+ is commutative and associative; negation is an involution, and a + (-a) has only zero control points; scaling distributes over sums of splines and of factors, is compatible with products of factors, and 1 acts as identity; the product of scalar-valued splines is commutative, products associate (also with a point-valued last factor), multiplication with the constant spline one is the identity, products distribute over operator+, the scalar product of point-valued splines is symmetric and distributes over operator+; RaisePower satisfies P^m P^n = P^(m+n), (P^m)^n = P^(mn) and (PQ)^n = P^n Q^n. Both sides of each law return the same spline, with equal degrees and equal stored control points, and none of the operations throws.", "quantifier": "every field of scalars, module of control points, parametric dimension, degrees (product degrees below the size of the binomial table, at most 2^31 control points) and control points", "why_tests_cant": "Universal in the splines; equality of the returned splines as stored, for two different call sequences.", "anchors": ["src/bezier_spline.inc:operator+", "src/bezier_spline.inc:operator*", "src/bezier_spline.inc:operator-", "src/bezier_spline.inc:RaisePower"]}
{"id": "C75", "title": "Rules of calculus between derivative splines and the other operations", "statement": "DerivativeWRT commutes with the other operations as differentiation does, control point by control point: successive derivatives of orders a and b return the derivative of order a+b; the derivative of a sum (operator+, also of splines of different degrees) is the sum of the derivatives and the derivative of a scaled spline is the scaled derivative; derivatives commute with OrderElevate; the derivative of a part returned by SplitAtPosition is the corresponding part of the derivative, scaled by the length of the part if the directions agree; product rule for operator*; power rule for RaisePower; chain rule for Compose: the derivative of outer(inner) is the sum over the dimensions j of the derivative of ExtractDimension(inner, j) times Compose of the j-th derivative of outer with inner.", "quantifier": "real scalars, every parametric dimension, scalar- or point-valued splines, degrees not below the derivative orders, products below the size of the binomial table, at most 2^31 control points", "why_tests_cant": "Universal in the splines and orders; equality of the returned splines as stored, for two different call sequences.", "anchors": ["src/bezier_spline.inc:DerivativeWRTParametricDimension", "src/bezier_spline.inc:operator*", "src/bezier_spline.inc:RaisePower", "src/bezier_spline.inc:Compose", "src/bezier_spline.inc:SplitAtPosition", "src/bezier_spline.inc:OrderElevateAlongParametricDimension"]}
{"id": "C76", "title": "Refinement and composition stay in the convex hull", "statement": "Every value of Evaluate in the unit box, every control point of OrderElevate, of every part of SplitAtPosition and SplitAtPositions (interior positions) and of Compose (inner control points in the unit box) is a convex combination of the control points of the given spline, so bounds on the coordinates are inherited. For Compose the splines returned by ComposeSensitivity are non-negative, sum to one control point by control point, and are the weights of the combination. For positive weights R_OrderElevate and R_SplitAtPosition return positive weights, and their control points (without weights) are convex combinations of the given ones.", "quantifier": "every ordered field of scalars, module of control points, parametric dimension, degrees (result below 2^31 control points and within the binomial table) and control points", "why_tests_cant": "Universal in the splines, directions and positions.", "anchors": ["src/bezier_spline.inc:Evaluate", "src/bezier_spline.inc:OrderElevateAlongParametricDimension", "src/bezier_spline.inc:SplitAtPosition", "src/bezier_spline.inc:Compose", "src/bezier_spline.inc:ComposeSensitivity", "src/rational_bezier_spline.inc:OrderElevateAlongParametricDimension", "src/rational_bezier_spline.inc:SplitAtPosition"]}
{"id": "C77", "title": "Laws of composition", "statement": "Compose is associative; it is linear in the outer spline (operator+ and operator* with a scalar), and multiplicative: composing a product or a power equals the product or power of the compositions; it commutes with ExtractDimension of the outer spline and with SplitAtPosition of the inner spline; the line with control points 0 and 1 is a neutral element on both sides. Both sides of each law return the same spline as stored, and no call throws.", "quantifier": "every ordered field of scalars, module of control points, parametric dimension, degrees within the binomial table, inner control points in the unit box", "why_tests_cant": "Universal in the splines; equality of the returned splines as stored, for two different call sequences.", "anchors": ["src/bezier_spline.inc:Compose", "src/bezier_spline.inc:operator+", "src/bezier_spline.inc:operator*", "src/bezier_spline.inc:RaisePower", "src/bezier_spline.inc:ExtractDimension", "src/bezier_spline.inc:SplitAtPosition"]}
{"id": "C78", "title": "Refinement commutes", "statement": "Elevations in two directions commute, elevation commutes with splitting, splits in different directions commute, and two splits in the same direction can be made in either order (the second position rescaled) and agree with SplitAtPositions. Elevation and splitting commute with operator+, with operator* (elevating either factor elevates the product), splitting with RaisePower, and operator+, scaling, elevation and splitting with ExtractDimension. Both sides of each law return the same spline as stored, and no call throws.", "quantifier": "every ordered field of scalars, module of control points, parametric dimension, degrees (products within the binomial table, at most 2^31 control points), interior positions and directions", "why_tests_cant": "Universal in the splines, directions and positions; equality of the returned splines as stored, for two different call sequences.", "anchors": ["src/bezier_spline.inc:OrderElevateAlongParametricDimension", "src/bezier_spline.inc:SplitAtPosition", "src/bezier_spline.inc:operator+", "src/bezier_spline.inc:operator*", "src/bezier_spline.inc:RaisePower", "src/bezier_spline.inc:ExtractDimension"]}
{"id": "C79", "title": "Assertions of the Bernstein unit tests", "statement": "The values of the Bernstein polynomials of one degree sum to one, their derivatives of a positive order sum to zero, the quadratic polynomials and their derivatives are the formulas of the unit test, and no value exceeds the envelope 1/sqrt(2 pi n x (1-x)) asserted by the unit test. The envelope assertion is false (degree 8, x = 1/18); it holds with e in place of pi.", "quantifier": "every degree within the binomial table, every real parameter (for the envelope: strictly between 0 and 1), every derivative order", "why_tests_cant": "The unit tests sample ten random degrees and parameters; the claim covers all of them.", "anchors": ["src/utils/algorithms/bernstein_polynomial.hpp:Evaluate", "tests/bernstein_polynomials/bernstein_polynomial_test.cpp"]}
{"id": "C80", "title": "The example program puts the crosses into the ring", "statement": "SimpleCrossTile returns five bilinear rectangles whose union is exactly the cross of the given thickness and whose interiors do not overlap; they fit into the unit cube exactly for thicknesses between -1 and 1. CircleGroup returns one exact annular segment per part of the arc (every value has radius (1-v) outer + v inner and an angle of the segment, and every such point is reached), neighbouring segments agree on their common edge, and a full turn closes, provided that one segment spans less than half a turn; without that the call or an evaluation divides by zero. The loops of main succeed, and the 20 splines (degrees 3,3) together have as image exactly the crosses mapped by the segments, inside the ring of radii 1 and 2.", "quantifier": "every thickness, radii, arc and number of segments with less than half a turn per segment, every parameter; the concrete program for every binomial table of 4 to 68 rows", "why_tests_cant": "The example is the only caller in the repository that strings constructors and rational composition together; a wrong weight or control point order gives a visibly wrong microstructure.", "anchors": ["example/Microstructure/microstructure_build.cpp:SimpleCrossTile", "example/Microstructure/microstructure_build.cpp:CircleGroup", "example/Microstructure/microstructure_build.cpp:main"]}
{"id": "C81", "title": "Rounding error of degree elevation and of sums", "statement": "In floating-point arithmetic with p digits (every operation rounded to nearest, exponents unbounded) OrderElevateAlongParametricDimension returns coefficients, and a spline whose values on the unit box, differ from the exact ones by at most 3((1+2^-p)^5 - 1) B in each coordinate, where B bounds that coordinate of the control points. operator+, operator+= and operator-= of splines of any degrees return the exact sum or difference up to an error that grows by the factor 1+3((1+2^-p)^5-1) with each elevation needed and by one further rounding.", "quantifier": "every precision, every rounding to nearest, every parametric dimension, degrees below 2^p (fewer than 2^31 control points), control points and bounds, every parameter in the unit box; points of every dimension and scalars", "why_tests_cant": "Tests compare with a fixed tolerance for a few splines.", "anchors": ["src/bezier_spline.inc:OrderElevateAlongParametricDimension", "src/bezier_spline.inc:operator+", "src/bezier_spline.inc:operator+=", "src/bezier_spline.inc:operator-="]}
{"id": "C82", "title": "Rounding error of subdivision", "statement": "In the same arithmetic both pieces returned by SplitAtPosition have coefficients within ((1+2^-p)^(3 n) - 1) B of the exact ones, n the degree in the split direction, and their values on the unit box are within the same distance of the values of the spline on the two parts of the domain.", "quantifier": "every precision, every rounding to nearest, every parametric dimension, degrees, position strictly between 0 and 1 and direction, control points and bounds; points of every dimension and scalars", "why_tests_cant": "Tests compare with a fixed tolerance for a few splines.", "anchors": ["src/bezier_spline.inc:SplitAtPosition"]}
{"id": "C83", "title": "Rounding error of derivative splines", "statement": "In the same arithmetic DerivativeWRTParametricDimension returns a spline whose coefficients, and whose values on the unit box, are within ((1+2^-p)^K - 1) S B of those of the exact derivative spline: K counts 3k+4 roundings for each direction differentiated k > 0 times and S is the product of 2^k n!/(n-k)! over the directions.", "quantifier": "every precision, every rounding to nearest, every parametric dimension, degrees, orders up to the degrees and within the binomial table, control points and bounds; points of every dimension and scalars", "why_tests_cant": "Tests compare with a fixed tolerance for a few splines.", "anchors": ["src/bezier_spline.inc:DerivativeWRTParametricDimension"]}
{"id": "C84", "title": "Pieces of a subdivided spline fit without gaps", "statement": "Whatever the arithmetic, the pieces returned by SplitAtPosition and SplitAtPositions share the control points on their common faces exactly, the first and the last piece keep those on the outer faces, and there is one piece more than positions. In floating-point arithmetic Evaluate returns exactly the same point on a common face for both pieces.", "quantifier": "every type of scalars and control points (no laws assumed), parametric dimension, degrees, positions and direction; for evaluation every precision, rounding to nearest, representable control points and parameters in the other directions", "why_tests_cant": "Equality without tolerance, for all numbers.", "anchors": ["src/bezier_spline.inc:SplitAtPosition", "src/bezier_spline.inc:Evaluate"]}
{"id": "C85", "title": "Rounding error of products", "statement": "In floating-point arithmetic with p digits (every operation rounded to nearest, exponents unbounded) the product of two scalar splines has coefficients within ((1+2^-p)^k - 1) A B of the exact ones, and values on the unit box within the same distance of the product of the values, where A and B bound the coefficients and k = 5 d + 2 + prod (min(m_i,n_i)+1) for d parametric dimensions; for non-negative coefficients the error of every coefficient is relative, k roundings. The products of a point-valued with a scalar spline (both orders) satisfy the same in each coordinate, and the dot product of two point-valued splines with n more roundings and bound n A B for n coordinates.", "quantifier": "every precision, every rounding to nearest, every parametric dimension, degrees whose sums stay within a binomial table of at most 68 rows, control points and bounds, every parameter in the unit box", "why_tests_cant": "Tests compare with a fixed tolerance for a few splines.", "anchors": ["src/bezier_spline.inc:operator*"]}
{"id": "C86", "title": "Rounding error of integer powers", "statement": "In the same arithmetic RaisePower(n) returns a spline whose coefficients, and whose values on the unit box, are within ((1+2^-p)^k - 1) B^n of the exact power, where B bounds the coefficients and k = (n-1) (5 d + 2 + prod (floor(n/2) m_i + 1)).", "quantifier": "every precision, every rounding to nearest, every exponent, parametric dimension, degrees with n m_i within a binomial table of at most 68 rows, coefficients and bounds, every parameter in the unit box", "why_tests_cant": "Repeated products could amplify errors; the bound is linear in n.", "anchors": ["src/bezier_spline.inc:RaisePower"]}
{"id": "C87", "title": "Rounding error of compositions and of their sensitivities", "statement": "In the same arithmetic, for an inner spline with control points in the unit box, Compose returns a spline whose coefficients and values are within ((1+2^-p)^(S+N) - 1) B of the exact composition in each coordinate, where B bounds that coordinate of the outer control points, N is their number and S = (|n| + 2 D)(5 d + 3 + prod (|n| m_i + 1)) with |n| the sum of the D outer degrees; every coefficient of ComposeSensitivity has relative error of S roundings. An inner control point outside the unit box is rejected, as in exact arithmetic.", "quantifier": "every precision, every rounding to nearest, every number of inner and outer parameters, degrees with |n| m_i within a binomial table of at most 68 rows, control points and bounds, every parameter in the unit box", "why_tests_cant": "Composition multiplies many splines; no cancellation occurs for inner control points in the unit box, which is what keeps the error relative.", "anchors": ["src/bezier_spline.inc:ComposeNumeratorSpline", "src/bezier_spline.inc:Compose", "src/bezier_spline.inc:ComposeSensitivity", "src/bezier_spline.inc:ComposeNumeratorSensitivity"]}
{"id": "C88", "title": "Textual output of points and of differentiated numbers", "statement": "toString(p) returns the coordinates between brackets, separated by a comma and a blank, each right-aligned in a field of p+2 characters (a longer number is not cut) and printed with precision p; if every number fits, the text has d (p+4) characters. Two points with the same text have the same dimension and the same printed coordinates; points with integer coordinates are equal. operator<< writes toString(6) whatever the precision of the stream, padded to the stream's field width with its fill character on the stream's side, and resets the width. operator<< of AlgoDiffType writes the value with the stream's own precision and no derivative, so a point of such numbers prints like the point of their values. A point without coordinates has no text (undefined behaviour).", "quantifier": "every coordinate type whose numbers are printed without blanks and commas, every dimension, precision (also negative, up to the range of int), point and stream state", "why_tests_cant": "Logs and debug output are read back by people and scripts; nothing tests them.", "anchors": ["src/point.hpp:toString", "src/point.hpp:operator<<", "src/utils/computational_differentiation/algo_diff_type.inc:operator<<"]}
{"id": "C89", "title": "Evaluation inside the unit box never overflows", "statement": "In binary floating-point arithmetic with a largest finite number, gradual underflow and rounding to nearest (double and float are instances), Evaluate at finite parameters in [0,1] of a spline whose control points are finite returns finite coordinates, even when control points are as large as the largest finite number. Each coordinate is within ((1+2^-p)^(3n) - 1) M + U of the exact value, n the sum of the degrees, M the sum of the absolute values of the Bernstein terms, U = n t (1+2^-p)^(3n) with t the smallest positive number (at most 2 n t when 3n 2^-p <= 1/2). At parameters 0 and 1 the result is the exact value. Outside the unit box overflow is possible: in every such format there are a linear spline and a finite parameter where Evaluate returns no finite number.", "quantifier": "every format with p >= 1 digits, smallest exponent at most -2p and largest exponent at least p, every rounding to nearest, point- and scalar-valued splines of every dimension and degree, all finite control points and parameters", "why_tests_cant": "Intermediate overflow would turn a value that is representable into an infinity or NaN.", "anchors": ["src/bezier_spline.inc:Evaluate"]}
{"id": "C90", "title": "Subdivision never overflows", "statement": "In the same arithmetic SplitAtPosition at a finite position in (0,1) of a spline with finite control points returns two splines with finite control points, whose coefficients and values are within ((1+2^-p)^(3q) - 1) B + q t (1+2^-p)^(3q) of the exact ones, q the degree in the split direction and B a bound of that coordinate of the control points.", "quantifier": "as C89, every direction", "why_tests_cant": "Repeated subdivision must not produce infinities.", "anchors": ["src/bezier_spline.inc:SplitAtPosition"]}
{"id": "C91", "title": "Degree elevation never overflows", "statement": "In the same arithmetic OrderElevateAlongParametricDimension of a spline with finite control points returns a spline with finite control points, whose coefficients and values are within (g3 + 2 g2) B + t (1+2^-p)^3 of the exact ones, where gk = (1+2^-p)^k - 1 and B bounds that coordinate of the control points.", "quantifier": "as C89, every direction whose elevated degree has at most p binary digits, fewer than 2^31 new coefficients", "why_tests_cant": "Elevation forms convex combinations with rounded ratios that need not sum to one.", "anchors": ["src/bezier_spline.inc:OrderElevateAlongParametricDimension"]}
{"id": "C92", "title": "Rounding error of subdividing rational splines", "statement": "In floating-point arithmetic with p digits (every operation rounded to nearest, exponents unbounded) SplitAtPosition of a rational spline with positive weights returns two rational splines which, as long as g = (1+2^-p)^(3q) - 1 < 1 for the degree q in the split direction, have positive weights, control points of absolute value at most (1+g)/(1-g) B and values on the unit box within 2 g B/(1-g) of the values of the spline on the two parts of the domain; B bounds a coordinate of the control points (not of the weighted ones).", "quantifier": "every precision, every rounding to nearest, every parametric dimension, degrees, position strictly between 0 and 1 and direction, positive weights, control points and bounds; points of every dimension and scalars", "why_tests_cant": "A weight that cancels or changes sign would make a rational spline useless; tests compare with a fixed tolerance.", "anchors": ["src/rational_bezier_spline.inc:SplitAtPosition"]}
{"id": "C93", "title": "Rounding error of degree elevation of rational splines", "statement": "In the same arithmetic OrderElevateAlongParametricDimension of a rational spline with positive weights returns a spline with the elevated degree for which the statements of C92 hold with g = (1+2^-p)^(2q+3) - 1 < 1.", "quantifier": "as C92, elevated degree below 2^p and fewer than 2^31 control points", "why_tests_cant": "As C92.", "anchors": ["src/rational_bezier_spline.inc:OrderElevateAlongParametricDimension"]}
{"id": "C94", "title": "Rounding error of products of rational splines", "statement": "In the same arithmetic the product of two scalar rational splines with positive weights has the sum of the degrees, positive weights, control points at most (1+g)/(1-g) A B and values on the unit box within 2 g A B/(1-g) of the product of the values, where A and B bound the control points and g = (1+2^-p)^k - 1 < 1 with the k of C85. The same holds in each coordinate for a point-valued times a scalar spline, and for the dot product of two d-dimensional ones with d A B and k + d.", "quantifier": "every precision, every rounding to nearest, every parametric dimension, degrees whose sums stay within a binomial table of at most 68 rows, positive weights, control points and bounds, every parameter in the unit box", "why_tests_cant": "As C92.", "anchors": ["src/rational_bezier_spline.inc:operator*"]}
{"id": "C95", "title": "Rounding error of sums and differences of rational splines", "statement": "In the same arithmetic operator+ and operator+= (and operator- and operator-=) of rational splines with positive weights return the same spline; it has positive weights, and each coordinate of its control points is at most (1+g)/(1-g)(A+B) and of its values on the unit box within 2 g (A+B)/(1-g) of the sum (difference) of the values, where A and B bound that coordinate of the operands and g = (1+2^-p)^(k+1) - 1 < 1 with the k of C85; whether the weights coincide (the degrees stay) or not (the degrees are added).", "quantifier": "as C94", "why_tests_cant": "As C92; the cross products with the weights could amplify errors.", "anchors": ["src/rational_bezier_spline.inc:operator+", "src/rational_bezier_spline.inc:operator+=", "src/rational_bezier_spline.inc:operator-", "src/rational_bezier_spline.inc:operator-="]}
{"id": "C96", "title": "Rounding error of composing a rational with a polynomial spline", "statement": "In the same arithmetic Compose of a rational spline with positive weights and a polynomial inner spline with control points in the unit box returns a rational spline with positive weights, the degrees of the exact composition, control points at most (1+g)/(1-g) B and values on the unit box within 2 g B/(1-g) of the exact composition in each coordinate, where B bounds that coordinate of the outer control points and g = (1+2^-p)^(S+N) - 1 < 1 with the S and N of C87.", "quantifier": "every precision, every rounding to nearest, every number of inner and outer parameters, degrees with |n| m_i within a binomial table of at most 68 rows, positive weights, control points and bounds; points of every dimension and scalars", "why_tests_cant": "As C92.", "anchors": ["src/rational_bezier_spline.hpp:Compose", "src/bezier_spline.inc:ComposeNumeratorSpline"]}
{"id": "C97", "title": "Pieces of a subdivided rational spline fit without gaps", "statement": "Whatever the arithmetic, the pieces returned by SplitAtPosition of a rational spline share the weighted control points and the weights on their common faces exactly, the first and the last piece keep those on the outer faces, and there is one piece more than positions. In floating-point arithmetic Evaluate returns exactly the same result on a common face for both pieces.", "quantifier": "every type of scalars and control points (no laws assumed), parametric dimension, degrees, weights, positions and direction; for evaluation every precision, rounding to nearest, representable stored numbers and parameters in the other directions", "why_tests_cant": "Equality without tolerance, for all numbers.", "anchors": ["src/rational_bezier_spline.inc:SplitAtPosition", "src/rational_bezier_spline.inc:Evaluate"]}
{"id": "C98", "title": "Rational evaluation with bounded exponents", "statement": "In the arithmetic of C89, rational Evaluate at finite parameters in [0,1] of a spline with finite weighted control points returns finite coordinates if the weights are between 2^-m and 2^m (m = 970 for double, 103 for float) and 4 (1 + B) does not exceed the largest finite number, where B bounds all coordinates of the control points. Each coordinate is within q M / W + 3 U / W + t of the exact value: W the exact weight, M the sum of the absolute values of the weighted Bernstein terms (M / W <= B), U and t as in C89, q = (1+2^-p)^(3n+2) / (2 - (1+2^-p)^(4n)) - 1 <= (28 n + 8) 2^-p, n the sum of the degrees. For scalar-valued splines, which use the built-in division, one rounding less. Without the condition on the weights this fails: with all weights equal to the smallest positive number the value is exactly 1, but Evaluate returns no finite number at the parameter 0, and divides by zero at 1/2 when ties are rounded to even.", "quantifier": "every format of C89 with p >= 4 digits, every rounding to nearest, degrees with 16 (1 + n) <= 2^p, all finite weighted control points, weights and parameters within the stated bounds; points of every dimension and scalars", "why_tests_cant": "Point division multiplies by the inverse, which overflows for small weights although the quotient is an ordinary number.", "anchors": ["src/rational_bezier_spline.inc:Evaluate", "src/point.hpp:operator/"]}
{"id": "C99", "title": "Operations on splines over AlgoDiffType carry gradients", "statement": "If the numbers in the operands (control points, weights, parameters, factors, shifts) are AlgoDiffType numbers that hold value and gradient of functions of some variables, then the result of an operation holds value and gradient of the plain result as a function of the variables, and the call ends in the same way (result, exception, failed assertion, division by zero) as the plain call at the current values. This covers evaluation, basis functions and their derivatives, degree elevation, UpdateDegrees, DerivativeWRTParametricDimension, SplitAtPosition for one and several positions, +, -, * and unary minus with splines, points and scalars, scalar products, RaisePower, ExtractDimension, TransposeAndScale, Compose and ComposeSensitivity, and the same members of rational splines except sums (C100).", "quantifier": "every spline, every number of variables, every differentiable dependence of control points, weights and parameters on the variables; scalar and point valued splines", "why_tests_cant": "Universal in shapes, numbers and the dependence on the variables; a test compares one gradient with finite differences.", "anchors": ["src/bezier_spline.inc:OrderElevateAlongParametricDimension", "src/bezier_spline.inc:SplitAtPosition", "src/bezier_spline.inc:Compose", "src/rational_bezier_spline.inc:Evaluate", "src/rational_bezier_spline.inc:DerivativeWRTParametricDimension", "src/utils/computational_differentiation/algo_diff_type.inc:operator*"]}
{"id": "C100", "title": "Sums of rational splines over AlgoDiffType", "statement": "Adding or subtracting rational splines whose numbers are AlgoDiffType numbers gives the value and the gradient of the sum or difference as a function of the variables.", "quantifier": "every pair of rational splines and every differentiable dependence of points and weights on the variables", "why_tests_cant": "The shortcut for equal weights compares values only; whether that matters depends on the gradients.", "anchors": ["src/rational_bezier_spline.inc:operator+", "src/rational_bezier_spline.inc:operator-", "src/utils/computational_differentiation/algo_diff_type.hpp:operator=="]}
{"id": "C101", "title": "Evaluation under fused multiply-add", "statement": "The error bounds of C71, C72 and C73 hold for every result the compiled evaluation functions can return when the compiler is free to contract a multiplication and the following addition or subtraction into one operation that rounds once; at the corners of the parameter space all these results are the control point. The results are not the same: on a line in double precision whose exact and uncontracted value is 0, contraction gives 1/8 or -1/8.", "quantifier": "every spline and rational spline with positive weights, every parameter in the unit box, every choice of contractions, any number of digits and any rule for ties", "why_tests_cant": "The language lets compilers contract, GCC does by default where the processor can, so the program's results differ between machines.", "anchors": ["src/bezier_spline.inc:Evaluate", "src/bezier_spline.inc:ForwardEvaluate", "src/rational_bezier_spline.inc:Evaluate"]}
{"id": "C102", "title": "ForwardEvaluate within the exponent range of a format", "statement": "In a floating-point format with overflow and gradual underflow the basis functions and the sum that ForwardEvaluate forms from them are finite for finite coefficients, and the error is the one of C72 plus a stated loss by underflow. For coefficients up to half the largest number this holds in double and single precision. For coefficients up to the largest number it fails: for a constant quadratic equal to the largest number there are parameters where ForwardEvaluate overflows and Evaluate does not. And the loss is real: a value of 2^-200 can come out of ForwardEvaluate as 0 in double precision where Evaluate returns it exactly.", "quantifier": "every spline of degrees below the size of the table of binomial coefficients, every parameter of the format in the unit box, every rule for ties", "why_tests_cant": "The two evaluation functions are documented as alternatives; they differ in which data they survive.", "anchors": ["src/bezier_spline.inc:ForwardEvaluate", "src/bezier_spline.inc:BasisFunctions", "src/utils/fastbinomialcoefficient.hpp:choose"]}
{"id": "C103", "title": "Sizes in 64 bits", "statement": "Constructing a spline from degrees and control points, resizing it, converting its indices and multiplying two splines give well-formed splines when sizes are 64-bit numbers, or fail. This holds if the degrees require fewer than 2^64 control points. Otherwise it is false: the constructor accepts an empty list of points for degree 2^64-1 or for two degrees of 2^32-1, and the product of two splines with 2^32 control points each can come back without any control point. The product converts degrees to int: a curve of a degree between 2^31 and 2^32 - 1 times a constant is zero everywhere, without any failed assertion.", "quantifier": "all lists of degrees, all lists of control points, all pairs of splines", "why_tests_cant": "Counts are products of std::size_t without any check; the assertion compares the wrapped count.", "anchors": ["src/bezier_spline.hpp:BezierSpline", "src/bezier_spline.hpp:UpdateDegrees", "src/bezier_spline.inc:LocalToGlobalIndex", "src/bezier_spline.inc:GlobalToLocalIndex", "src/bezier_spline.inc:operator*"]}
{"id": "C104", "title": "The unit cube in rounded arithmetic", "statement": "With every operation rounded to nearest, FitIntoUnitCube maps each spline that is flat in no direction to a spline with all coordinates in [0,1], so that FitsIntoUnitCube accepts the result. The least coordinate becomes exactly 0, and each coordinate has a small relative error; the greatest may end below 1. A spline with coordinates in [0,1] keeps this when it is elevated or split, and its computed values lie in [0,1]. The same holds for rational splines built from control points in [0,1] and positive weights: FitsIntoUnitCube accepts them and everything obtained by elevation and splitting.", "quantifier": "all splines, all formats, all roundings to nearest, all parameters in the unit interval that are numbers of the format", "why_tests_cant": "Compose throws if the inner spline does not fit into the unit cube, and the check has no tolerance, so one rounding error above 1 would make composition fail.", "anchors": ["src/bezier_spline.inc:FitIntoUnitCube", "src/bezier_spline.inc:FitsIntoUnitCube", "src/bezier_spline.inc:TransposeAndScale", "src/rational_bezier_spline.inc:FitsIntoUnitCube", "src/bezier_spline.inc:SplitAtPosition", "src/bezier_spline.inc:OrderElevateAlongParametricDimension"]}
{"id": "C105", "title": "How far the control points are from the spline", "statement": "Measure distances by any seminorm (absolute value, absolute coordinate, Euclidean norm). If the second differences of the control points are at most D_k in direction k, then the control point with index i differs from the value of Evaluate at the parameters i_k/p_k by at most the sum of i_k(p_k-i_k)/(2p_k) D_k, which is at most the sum of p_k D_k/8; the corners of the bounding box are attained up to the same amount. First differences of at most D_k bound the distance of any two control points, and of a control point and a value, by the sum of p_k D_k. Splitting at x in direction k multiplies the bounds for first and second differences in this direction by x and x^2 for the first part, by 1-x and (1-x)^2 for the second, and keeps the bounds in the other directions; splitting at several positions multiplies them by the length of the interval and by its square. So halving n times divides the distance of the control points from the spline by 4^n. Elevating n times multiplies the bound for first differences by p/(p+n) and for second differences by p(p-1)/((p+n)(p+n-1)).", "quantifier": "all splines, all directions, all positions strictly between 0 and 1, all seminorms, all numbers of refinements", "why_tests_cant": "Control polygons are drawn, and bounding boxes used, in place of the spline; the source offers subdivision and elevation for refinement.", "anchors": ["src/bezier_spline.inc:Evaluate", "src/bezier_spline.inc:SplitAtPosition", "src/bezier_spline.inc:OrderElevateAlongParametricDimension", "src/bezier_spline.inc:MaximumCorner", "src/bezier_spline.inc:MinimumCorner"]}
{"id": "C106", "title": "A build without assertions", "statement": "Compiled with NDEBUG, every function that contains or reaches an assertion returns what a debug build returns, as long as no assertion fails there. Where one would fail: the constructor accepts any number of control points; with too few of them Evaluate reads past the end of the vector, surplus ones are ignored by Evaluate. Binomial coefficients, Bernstein polynomials, basis functions and ForwardEvaluate for a degree beyond the table read past its end. Decode ignores up to three trailing characters. Operators of the differentiation type ignore surplus derivatives of the right operand and read past its end if it has fewer than the left one; an active component beyond the number of derivatives is written past the end. A rational spline can be made of a numerator and a weight function of different degrees, and evaluates to the quotient of both.", "quantifier": "all functions with assertions, all arguments; the outcomes of failing assertions for all arguments of the functions named", "why_tests_cant": "The library is header-only and compiled by its users, usually in release mode; the assertions are its only argument checks in many functions.", "anchors": ["src/bezier_spline.hpp:BezierSpline", "src/utils/fastbinomialcoefficient.hpp:choose", "src/bezier_spline.inc:ForwardEvaluate", "src/utils/base64.hpp:Decode", "src/utils/computational_differentiation/algo_diff_type.inc:operator+=", "src/rational_bezier_spline.hpp:RationalBezierSpline"]}
{"id": "C107", "title": "Rounding error of the derivatives of basis functions and of EvaluateDerivative", "statement": "In binary arithmetic with p digits, round to nearest and unbounded exponent, the errors of all values of BernsteinBasis::EvaluateDerivative of degree n and order k together are at most ((1+2^-p)^(2n+k+7) - 1) 2^k n!/(n-k)!, those of BasisFunctionsDerivatives together at most ((1+2^-p)^K - 1) S with K the sum of 2n+k+8 and S the product of 2^k n!/(n-k)! over the directions, and EvaluateDerivative differs from the exact derivative by at most ((1+2^-p)^(K+N) - 1) S B for N control points bounded by B. EvaluateDerivative and Evaluate of the spline returned by DerivativeWRTParametricDimension therefore agree up to an explicit multiple of S B.", "quantifier": "every precision, every rounding to nearest, every parametric dimension, degrees within the binomial table, orders (for the agreement: up to the degrees), control points, bounds and parameters of the unit box; points of every dimension and scalars", "why_tests_cant": "The source has two ways to the derivative at a parameter; tests compare them with a fixed tolerance for a few splines.", "anchors": ["src/bezier_spline.inc:EvaluateDerivative", "src/bezier_spline.inc:BasisFunctionsDerivatives", "src/utils/algorithms/bernstein_polynomial.hpp:EvaluateDerivative"]}
{"id": "C108", "title": "The operations of a spline with sizes in 64 bits", "statement": "With sizes and indices reduced modulo 2^64 in every sum, difference and product, Evaluate, both SplitAtPosition, OrderElevateAlongParametricDimension, +, +=, -, -=, DerivativeWRTParametricDimension, RaisePower, ExtractDimension, Compose and ComposeSensitivity return what they return with unbounded sizes, provided that the operands are well-formed and neither they nor the result have 2^64 control points or more (or more than a vector can hold). So evaluation gives the value of the spline, splitting and elevation keep values, sums, differences, derivatives and compositions have the right values. An elevation or composition whose result is larger than a vector can hold throws. DerivativeWRTParametricDimension with an order one above the degree returns a spline without control points, of degree 2^64 - 1, whose evaluation divides by zero; for a curve and a higher order it reads outside the vector, unless the assertion on the binomial table fails first; the assertion sees the order modulo 2^32.", "quantifier": "all splines, all parameters, all directions, orders, powers, all limits on the size of a vector", "why_tests_cant": "The other properties of these functions are proved for unbounded sizes; the program uses std::size_t throughout, and unsigned differences such as p - i and new_degrees[k] -= orders[k] wrap.", "anchors": ["src/bezier_spline.inc:Evaluate", "src/bezier_spline.inc:SplitAtPosition", "src/bezier_spline.inc:OrderElevateAlongParametricDimension", "src/bezier_spline.inc:operator+", "src/bezier_spline.inc:DerivativeWRTParametricDimension", "src/bezier_spline.inc:RaisePower", "src/bezier_spline.inc:Compose", "src/bezier_spline.inc:ComposeSensitivity"]}
{"id": "C109", "title": "The spline has the shape of its control net", "statement": "For a function phi of points that is affine (a number itself, a coordinate, the signed distance from a plane): if the control points do not decrease under phi in a direction then neither does the spline, if they are convex in a direction so is the spline, and both are inherited by the parts of SplitAtPosition and SplitAtPositions and by order elevation in every direction. Along a curve phi changes sign at most as often as along its control points: for increasing parameters of the unit interval at which the values alternate in sign there are as many increasing indices of control points with the same signs (a curve crosses a plane no more often than its control polygon). The same holds of rational curves with positive weights, and splitting and elevation do not add changes of sign in any line of control points.", "quantifier": "all splines over the real numbers, all parametric dimensions (for values changing sign: one), all directions, affine functions, parameters of the unit box, increasing split planes", "why_tests_cant": "Root finding, intersection and ray tests with Bezier geometry rely on the control net as an envelope of the shape; C75 and C105 bound only values and distances.", "anchors": ["src/bezier_spline.inc:Evaluate", "src/bezier_spline.inc:SplitAtPosition", "src/bezier_spline.inc:SplitAtPositions", "src/bezier_spline.inc:OrderElevateAlongParametricDimension", "src/rational_bezier_spline.inc:Evaluate"]}
{"id": "C110", "title": "Objects after an exception", "statement": "When a vector cannot grow (length_error, bad_alloc), UpdateDegrees, OrderElevateAlongParametricDimension, += and -= throw and leave an object that is still valid and has its old values. (False: number_of_control_points and, in UpdateDegrees, the degrees are assigned before the vector is resized. After a failed elevation everything but the count is as before; after a failed += or -= the object is the left operand elevated some times, with the same values, but with a wrong count. UpdateDegrees(degrees) makes it valid again. Evaluating the object as it is can read outside the vector. A rational spline may be left with an elevated numerator and an unelevated weight function.)", "quantifier": "all splines, all directions, all operands of equal dimension, all limits on the size of a vector below the size needed", "why_tests_cant": "Callers that catch exceptions go on using the object; the assignments precede the resize in the source.", "anchors": ["src/bezier_spline.hpp:UpdateDegrees", "src/bezier_spline.inc:OrderElevateAlongParametricDimension", "src/bezier_spline.inc:operator+=", "src/bezier_spline.inc:operator-=", "src/rational_bezier_spline.hpp:UpdateDegrees", "src/rational_bezier_spline.inc:OrderElevateAlongParametricDimension"]}
{"id": "C111", "title": "Elevation, sums, subdivision and derivatives with fused multiply-add", "statement": "When the compiler contracts multiplications and additions into fused operations, in any combination it chooses, OrderElevateAlongParametricDimension, +, +=, -=, SplitAtPosition and DerivativeWRTParametricDimension return splines of the expected degrees whose coefficients and values keep the error bounds known for separate operations: 3 gamma_5 B for one elevation, the compound bound for sums, gamma_{3 degree} B for the two halves of a subdivision, and gamma (binomial and factorial scale) B for derivatives. The result without contraction is one of the possible results.", "quantifier": "all splines with point or scalar coefficients, all precisions, all roundings to nearest, all contraction choices, all operands within the size limits, all parameters in the unit box", "why_tests_cant": "GCC contracts by default on targets with FMA; C101 covers only the evaluation functions.", "anchors": ["src/bezier_spline.inc:OrderElevateAlongParametricDimension", "src/bezier_spline.inc:operator+", "src/bezier_spline.inc:operator+=", "src/bezier_spline.inc:operator-=", "src/bezier_spline.inc:SplitAtPosition", "src/bezier_spline.inc:DerivativeWRTParametricDimension", "src/point.inc:operator*"]}
{"id": "C112", "title": "The operations of a rational spline with sizes in 64 bits", "statement": "With sizes and indices reduced modulo 2^64 in every sum, difference and product, the constructors of a rational spline, UpdateDegrees, Evaluate, both SplitAtPosition, OrderElevateAlongParametricDimension, +, +=, -, -=, *, DerivativeWRTParametricDimension, Compose and ComposeSensitivity (polynomial in rational, rational in polynomial, rational in rational) return what they return with unbounded sizes, provided that the operands are well-formed and neither they nor the result have 2^64 control points or more (or more than a vector can hold). So evaluation gives numerator over weight, splitting and elevation keep values, sums, differences, products, derivatives and compositions have the right values. A construction or elevation larger than one of the two vectors can hold throws. The derivative in a direction of degree zero, which would be the zero spline, divides by zero.", "quantifier": "all rational splines, all parameters, all directions, orders, all limits on the sizes of the two vectors", "why_tests_cant": "C108 covers the polynomial class only; the rational class multiplies and subtracts degrees in its quotient rule and in its compositions, where unsigned wrap-around is silent.", "anchors": ["src/rational_bezier_spline.inc:Evaluate", "src/rational_bezier_spline.inc:SplitAtPosition", "src/rational_bezier_spline.inc:OrderElevateAlongParametricDimension", "src/rational_bezier_spline.inc:operator+", "src/rational_bezier_spline.inc:operator*", "src/rational_bezier_spline.inc:DerivativeWRTParametricDimension", "src/rational_bezier_spline.inc:UpdateDegrees", "src/bezier_spline.inc:Compose", "src/bezier_spline.inc:ComposeSensitivity"]}
{"id": "C113", "title": "Basis functions and evaluated derivatives with sizes in 64 bits", "statement": "With sizes and indices reduced modulo 2^64 and the arguments of choose narrowed to unsigned int, BasisFunctions, ForwardEvaluate, BasisFunctionsDerivatives and EvaluateDerivative of both classes, and UnweightedBasisFunctions, return what they return with unbounded sizes whenever the vectors they build can be allocated; so ForwardEvaluate agrees with Evaluate and EvaluateDerivative returns the partial derivatives. Vectors that are too large throw. (Not true for all orders: the number of derivatives of a rational spline is a product that can wrap. If it wraps to zero the behaviour is undefined, and if it wraps to one the value is returned instead of the derivative: the derivative of orders 2 and 12297829382473034410 of a constant rational spline is returned as the constant, not as zero.)", "quantifier": "all splines, all parameters, all orders, all limits on the sizes of the vectors", "why_tests_cant": "C108 and C112 leave these functions out; the rational derivatives multiply the orders given by the caller, which no assertion bounds.", "anchors": ["src/bezier_spline.inc:BasisFunctions", "src/bezier_spline.inc:ForwardEvaluate", "src/bezier_spline.inc:BasisFunctionsDerivatives", "src/bezier_spline.inc:EvaluateDerivative", "src/rational_bezier_spline.inc:BasisFunctions", "src/rational_bezier_spline.inc:UnweightedBasisFunctions", "src/rational_bezier_spline.inc:ForwardEvaluate", "src/rational_bezier_spline.inc:EvaluateDerivative", "src/rational_bezier_spline.inc:BasisFunctionsDerivatives"]}
{"id": "C114", "title": "Rounding error of composing with a rational inner spline", "statement": "In the same arithmetic Compose of a polynomial spline, or of a rational spline with positive weights, and a rational inner spline with positive weights and control points in the unit box returns a rational spline with positive weights, the degrees of the exact composition, control points at most (1+g)/(1-g) B and values on the unit box within 2 g B/(1-g) of the outer spline at the value of the inner one in each coordinate, where B bounds that coordinate of the outer control points and g = (1+2^-p)^(S+N) - 1 < 1 with the S and N of C87. The sensitivities of all three compositions with a rational spline have numerators with non-negative coefficients and values within 2 g/(1-g) of the exact sensitivities. If the rounded control points of the inner spline leave the unit box, Compose and ComposeSensitivity of a polynomial spline throw.", "quantifier": "every precision, every rounding to nearest, every number of inner and outer parameters, degrees with |n| m_i within a binomial table of at most 68 rows, positive weights, control points and bounds; points of every dimension and scalars", "why_tests_cant": "C87 and C96 treat polynomial inner splines only; here the denominators are powers of the inner weights, computed by other products than the numerators.", "anchors": ["src/bezier_spline.inc:Compose", "src/bezier_spline.inc:ComposeSensitivity", "src/bezier_spline.inc:ComposeNumeratorSpline", "src/bezier_spline.inc:ComposeDenominatorSpline", "src/rational_bezier_spline.inc:ComposeSensitivity", "src/rational_bezier_spline.hpp:Compose"]}
{"id": "C115", "title": "Rounding error of the partial derivative of a rational spline", "statement": "In the same arithmetic, for a rational spline with weights in [m, W], m > 0, and degree n >= 1 in direction k, DerivativeWRTParametricDimension of order one in direction k returns a rational spline of twice the degrees with positive weights, and each of its coordinates differs at every point of the unit box from the partial derivative of that coordinate of the spline by at most 2 g B / (1 - g), where B = 4 n U W / m^2, U bounds the coordinate of the weighted control points, g = (1 + u)^(23 + K) - 1 < 1 with K the roundings of the product of the weights with themselves, and u = 2^-p.", "quantifier": "every precision, every rounding to nearest, every number of parameters, direction, degrees with twice each degree within a binomial table of at most 68 rows and twice the degree n below 2^p, positive weights, control points and bounds; points of every dimension and scalars", "why_tests_cant": "The quotient rule subtracts two products, so a sign error, a missing product or a derivative in the wrong direction leaves every bound in u; cancellation makes the error depend on the range of the weights, unlike all other operations on rational splines.", "anchors": ["src/rational_bezier_spline.inc:DerivativeWRTParametricDimension"]}
{"id": "C116", "title": "Rounding error of the subdivision at several planes", "statement": "With every arithmetic operation rounded to nearest in precision p, SplitAtPosition with n planes that increase strictly from above 0 to at most 1 - 3u, u = 2^-p, returns n + 1 parts of unchanged degrees. There are cuts, increasing strictly inside (0,1), the i-th within ((1 + u)^4 - 1)(t_i - t_0) of the plane t_i, such that part i differs at every point of the unit box from the spline on the interval between its cuts by at most ((1 + u)^(3 q min(i + 1, n)) - 1) B per coordinate, q the degree in the direction of the planes and B a bound of the coordinate of the control points; with the planes themselves in place of the cuts, by at most 2 q ((1 + u)^4 - 1) B more. For rational splines with positive weights the weights stay positive and the error of part i is 2 g B / (1 - g), g = (1 + u)^(3 q min(i + 1, n)) - 1 < 1. Representable planes that only lie strictly inside (0,1) are not enough: when ties go to even, the planes 3u/2 and 1 - u make the function throw.", "quantifier": "every precision, every rounding to nearest, every number of planes, number of parameters, direction, degrees, control points and bounds; points of every dimension and scalars; polynomial splines and rational splines with positive weights", "why_tests_cant": "Each cut is made in the rest that the previous cut left, at a relative position computed from the planes. A relative position taken with respect to the wrong plane, or a rest that is not replaced, moves the later parts by more than any rounding error.", "anchors": ["src/bezier_spline.inc:SplitAtPosition", "src/rational_bezier_spline.inc:SplitAtPosition"]}
{"id": "C117", "title": "Subdivision at several planes with bounded exponents", "statement": "In a binary format with finitely many finite numbers, as double, with results rounded to nearest on its grid, overflow to a non-finite value and gradual underflow: for finite control points, of any size up to the largest finite number, and n planes of the format that increase strictly from above 0 to at most 1 - 3u, u = 2^-p, SplitAtPosition with these planes returns n + 1 parts of unchanged degrees whose control points are all finite. There are cuts, increasing strictly inside (0,1), the i-th within ((1 + u)^4 - 1)(t_i - t_0) + i w of the plane t_i, w the smallest positive number, such that part i differs at every point of the unit box from the spline on the interval between its cuts by at most ((1 + u)^(3 m) - 1) B + m w (1 + u)^(3 m) per coordinate, m = q min(i + 1, n), q the degree in the direction of the planes and B a bound of the coordinate of the control points; with the planes themselves in place of the cuts, by at most 2 q B ((1 + u)^4 - 1 + n w) more.", "quantifier": "every format with 0 < p, emin <= -2p and emax >= p, every rounding to nearest on its grid, every number of planes, number of parameters, direction, degrees, finite control points and bounds; points of every dimension and scalars", "why_tests_cant": "The rest is cut again and again, so a single overflow or a relative position that is no finite number would spoil every later part, and an evaluation of them would return NaN.", "anchors": ["src/bezier_spline.inc:SplitAtPosition"]}
{"id": "C118", "title": "Arbitrary planes never lead to non-finite parts", "statement": "In a binary format with finitely many finite numbers, with overflow to a non-finite value and gradual underflow: for finite control points and any parameter, a number of the format or not a finite number, SplitAtPosition throws exactly when the parameter is not a number strictly between 0 and 1, and otherwise returns two parts whose control points are finite. For finite control points and any list of planes, each a number of the format or not a finite number, SplitAtPosition with these planes either throws or returns one part more than there are planes, of unchanged degrees and with finite control points; it never divides by zero. When it returns, all planes are finite, lie strictly between 0 and 1 and increase strictly.", "quantifier": "every format with 0 < p, emin <= -2p and emax >= p, every rounding to nearest on its grid, every list of planes, number of parameters, direction within the parameters, degrees and finite control points; points of every dimension and scalars", "why_tests_cant": "Only the order of the planes is checked, and NaN passes that check; the range check is left to the cuts of the rest, at positions that are quotients of rounded differences. A plane at 1 would make the next quotient a division by zero.", "anchors": ["src/bezier_spline.inc:SplitAtPosition"]}
{"id": "C119", "title": "Subdivision of rational splines at several planes does not overflow and stays accurate", "statement": "In a binary format with finitely many finite numbers, with overflow to a non-finite value and gradual underflow: for a rational spline with finite weighted control points and weights and strictly increasing planes as in C117, SplitAtPosition with these planes throws no exception, divides by no zero and returns one rational part more than there are planes. Each part is well formed with unchanged degrees and finite weighted control points and weights. Numerator and weight function of part i are within the error of C117 of those of the spline between the same cuts, and the cuts are near the planes. Where the weight W of the spline exceeds its error e_w, the weight of the part is positive and each coordinate x of the value differs by at most (e_u + |x| e_w) / (W - e_w), where e_u is the error of the numerator.", "quantifier": "every format with 0 < p, emin <= -2p and emax >= p, every rounding to nearest on its grid, every list of planes as in C117, number of parameters, direction within the parameters, degrees, finite weighted control points and weights, and parameters in [0, 1]; points of every dimension and scalars", "why_tests_cant": "The rational overload recomputes the relative plane for every cut and splits numerator and weights separately. If the two were cut at different positions, or the rest were taken from the wrong half, the quotient would no longer describe the same curve.", "anchors": ["src/rational_bezier_spline.inc:SplitAtPosition"]}
