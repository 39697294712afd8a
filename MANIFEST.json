{
 "claims": [
  {
   "property": "C01",
   "status": "proved",
   "theorems": [
    "C01_index_bijection"
   ],
   "note": ""
  },
  {
   "property": "C02",
   "status": "partial",
   "theorems": [
    "C02_histories_partial",
    "C02_default_refuted",
    "C02_default_update",
    "C02_default_undefined"
   ],
   "note": "The history theorem covers every constructor and every modelled operation of polynomial and rational splines, in any finite sequence (inductive predicates built/rbuilt in SpecHistory.v), and any control-point types. Missing: the default constructor, which leaves degrees 0 but an empty control-point vector (C02_default_refuted); one UpdateDegrees repairs it (C02_default_update), before that reading, evaluating and indexing it are undefined (C02_default_undefined). Resizing the vector through the mutable reference of GetControlPoints is excluded."
  },
  {
   "property": "C03",
   "status": "proved",
   "theorems": [
    "C03_control_point_access"
   ],
   "note": ""
  },
  {
   "property": "C04",
   "status": "proved",
   "theorems": [
    "C04_binomial_table",
    "C04_binomial_factorial",
    "C04_bound_sharp"
   ],
   "note": ""
  },
  {
   "property": "C05",
   "status": "proved",
   "theorems": [
    "C05_bernstein_evaluate"
   ],
   "note": ""
  },
  {
   "property": "C06",
   "status": "proved",
   "theorems": [
    "C06_partition_of_unity",
    "C06_non_negative"
   ],
   "note": ""
  },
  {
   "property": "C07",
   "status": "proved",
   "theorems": [
    "C07_derivatives",
    "C07_zero"
   ],
   "note": ""
  },
  {
   "property": "C08",
   "status": "proved",
   "theorems": [
    "C08_recursive_combine"
   ],
   "note": ""
  },
  {
   "property": "C09",
   "status": "proved",
   "theorems": [
    "C09_evaluate"
   ],
   "note": ""
  },
  {
   "property": "C10",
   "status": "proved",
   "theorems": [
    "C10_forward_evaluate"
   ],
   "note": ""
  },
  {
   "property": "C11",
   "status": "proved",
   "theorems": [
    "C11_corner_interpolation"
   ],
   "note": ""
  },
  {
   "property": "C12",
   "status": "proved",
   "theorems": [
    "C12_bounding_box"
   ],
   "note": ""
  },
  {
   "property": "C13",
   "status": "proved",
   "theorems": [
    "C13_order_elevate"
   ],
   "note": ""
  },
  {
   "property": "C14",
   "status": "proved",
   "theorems": [
    "C14_derivative_spline"
   ],
   "note": ""
  },
  {
   "property": "C15",
   "status": "proved",
   "theorems": [
    "C15_agrees",
    "C15_zero",
    "C15_derivative"
   ],
   "note": ""
  },
  {
   "property": "C16",
   "status": "partial",
   "theorems": [
    "C16_within_degree",
    "C16_beyond_degree",
    "C16_one_beyond",
    "C16_beyond_degree_refuted"
   ],
   "note": "False: the unsigned degree wraps around (C16_beyond_degree_refuted). C16_beyond_degree: for every order beyond the degree the call either runs out of bounds or asks for a degree larger than the original one; C16_one_beyond: one order beyond the degree yields no control points. C16_within_degree: orders up to the degree give the expected degrees and number of control points in 64-bit arithmetic."
  },
  {
   "property": "C17",
   "status": "proved",
   "theorems": [
    "C17_add"
   ],
   "note": ""
  },
  {
   "property": "C18",
   "status": "proved",
   "theorems": [
    "C18_add_assign",
    "C18_sub_assign"
   ],
   "note": ""
  },
  {
   "property": "C19",
   "status": "partial",
   "theorems": [
    "C19_sub_refuted",
    "C19_sub_never_returns",
    "C19_sub_partial"
   ],
   "note": "Refuted as stated: a - b does not terminate when b has a higher degree than a in some direction (C19_sub_never_returns). C19_sub_partial proves the property when every degree of b is at most that of a."
  },
  {
   "property": "C20",
   "status": "proved",
   "theorems": [
    "C20_product_scalar_scalar",
    "C20_product_point_scalar",
    "C20_product_scalar_point",
    "C20_product_dot"
   ],
   "note": ""
  },
  {
   "property": "C21",
   "status": "proved",
   "theorems": [
    "C21_pointwise"
   ],
   "note": ""
  },
  {
   "property": "C22",
   "status": "partial",
   "theorems": [
    "C22_alias_spline_refuted",
    "C22_alias_point_refuted",
    "C22_alias_spline_partial",
    "C22_alias_last",
    "C22_alias_point_partial",
    "C22_alias_point_safe"
   ],
   "note": "Refuted: control points (coordinates) behind the aliased one see its new value. C22_alias_spline_partial and C22_alias_point_partial give the exact result of the aliased call; C22_alias_last: correct when the aliased entry is the last one; C22_alias_point_safe: p /= p[k], p += p and p -= p are correct."
  },
  {
   "property": "C23",
   "status": "proved",
   "theorems": [
    "C23_raise_power"
   ],
   "note": ""
  },
  {
   "property": "C24",
   "status": "proved",
   "theorems": [
    "C24_extract_dimension",
    "C24_extract_dimension_range"
   ],
   "note": ""
  },
  {
   "property": "C25",
   "status": "proved",
   "theorems": [
    "C25_corners",
    "C25_fits_exact",
    "C25_empty"
   ],
   "note": ""
  },
  {
   "property": "C26",
   "status": "proved",
   "theorems": [
    "C26_fit"
   ],
   "note": ""
  },
  {
   "property": "C27",
   "status": "partial",
   "theorems": [
    "C27_flat_refuted",
    "C27_flat_always"
   ],
   "note": "Refuted: a spline flat in some coordinate divides by zero (C27_flat_always shows this happens for every flat spline)."
  },
  {
   "property": "C28",
   "status": "proved",
   "theorems": [
    "C28_compose",
    "C28_compose_outside"
   ],
   "note": ""
  },
  {
   "property": "C29",
   "status": "proved",
   "theorems": [
    "C29_sensitivity"
   ],
   "note": ""
  },
  {
   "property": "C30",
   "status": "proved",
   "theorems": [
    "C30_polynomial_of_rational",
    "C30_rational_of_polynomial",
    "C30_rational_of_rational"
   ],
   "note": ""
  },
  {
   "property": "C31",
   "status": "partial",
   "theorems": [
    "C31_rejects_refuted",
    "C31_rejects_partial"
   ],
   "note": "Refuted for rational(rational), which never tests the inner spline. C31_rejects_partial proves it for the other three combinations, for Compose and ComposeSensitivity; a rational inner spline is assumed to have non-zero weights."
  },
  {
   "property": "C32",
   "status": "proved",
   "theorems": [
    "C32_split",
    "C32_split_range"
   ],
   "note": ""
  },
  {
   "property": "C33",
   "status": "proved",
   "theorems": [
    "C33_multi_split",
    "C33_multi_split_empty",
    "C33_multi_split_bad"
   ],
   "note": ""
  },
  {
   "property": "C34",
   "status": "proved",
   "theorems": [
    "C34_quotient",
    "C34_control_points",
    "C34_conversion"
   ],
   "note": ""
  },
  {
   "property": "C35",
   "status": "partial",
   "theorems": [
    "C35_forward_evaluate_refuted",
    "C35_forward_evaluate_partial"
   ],
   "note": "Refuted: ForwardEvaluate returns the numerator only. C35_forward_evaluate_partial: it is W(t) times Evaluate(t), hence equal exactly where W(t)=1."
  },
  {
   "property": "C36",
   "status": "proved",
   "theorems": [
    "C36_basis_functions",
    "C36_sum",
    "C36_basis_functions_nonneg"
   ],
   "note": ""
  },
  {
   "property": "C37",
   "status": "partial",
   "theorems": [
    "C37_evaluate_derivative_partial",
    "C37_large_order_refuted",
    "C37_binomials_fit"
   ],
   "note": "Refuted for orders as large as MAX_BINOMIAL_DEGREE (the binomial table aborts). C37_evaluate_derivative_partial proves it for orders below that limit whose products of binomial coefficients fit into 64 bits (C37_binomials_fit gives simple sufficient conditions, e.g. total order at most 63, or up to two parametric dimensions with orders below 35)."
  },
  {
   "property": "C38",
   "status": "proved",
   "theorems": [
    "C38_basis_derivatives"
   ],
   "note": ""
  },
  {
   "property": "C39",
   "status": "proved",
   "theorems": [
    "C39_derivative_spline"
   ],
   "note": ""
  },
  {
   "property": "C40",
   "status": "proved",
   "theorems": [
    "C40_add_sub",
    "C40_product_scalar_scalar",
    "C40_product_point_scalar",
    "C40_product_scalar_point",
    "C40_product_dot"
   ],
   "note": ""
  },
  {
   "property": "C41",
   "status": "proved",
   "theorems": [
    "C41_pointwise"
   ],
   "note": ""
  },
  {
   "property": "C42",
   "status": "proved",
   "theorems": [
    "C42_order_elevate",
    "C42_split",
    "C42_split_range",
    "C42_multi_split",
    "C42_multi_split_bad"
   ],
   "note": ""
  },
  {
   "property": "C43",
   "status": "partial",
   "theorems": [
    "C43_variadic_refuted",
    "C43_variadic_partial"
   ],
   "note": "Refuted for two parametric dimensions (comma operator keeps the last index only). Missing from C43_variadic_partial: all parametric dimensions other than one."
  },
  {
   "property": "C44",
   "status": "proved",
   "theorems": [
    "C44_bounds",
    "C44_corners",
    "C44_fits_exact",
    "C44_empty"
   ],
   "note": ""
  },
  {
   "property": "C45",
   "status": "proved",
   "theorems": [
    "C45_round_trip"
   ],
   "note": ""
  },
  {
   "property": "C46",
   "status": "partial",
   "theorems": [
    "C46_encoding_partial",
    "C46_encoding_refuted"
   ],
   "note": "Refuted when the number of bytes is not a multiple of three: the unused low bits of the last character come from the memory behind the vector. C46_encoding_partial: length, alphabet, padding and all full groups are right, and the whole string is RFC 4648 when the number of bytes is a multiple of three or the bytes behind the vector are zero."
  },
  {
   "property": "C47",
   "status": "partial",
   "theorems": [
    "C47_reads_partial",
    "C47_reads_refuted"
   ],
   "note": "Refuted: Encode reads one or two bytes behind the vector exactly when its number of bytes is not a multiple of three (C47_reads_partial proves both directions)."
  },
  {
   "property": "C48",
   "status": "partial",
   "theorems": [
    "C48_small_partial",
    "C48_small_refuted"
   ],
   "note": "Refuted: zero entries are appended. C48_small_partial gives the exact decoded vector and shows that the round trip holds exactly when the padding is smaller than one entry."
  },
  {
   "property": "C49",
   "status": "proved",
   "theorems": [
    "C49_points",
    "C49_decode"
   ],
   "note": ""
  },
  {
   "property": "C50",
   "status": "partial",
   "theorems": [
    "C50_exact_partial",
    "C50_zero_pow_zero_refuted",
    "C50_defined",
    "C50_abs_corner"
   ],
   "note": "Refuted for pow(x, 0) at x = 0, which is computed as 0 * (1/0). C50_exact_partial proves the property for all expressions without this case. Division and functions outside their domain give the outcome NonFinite in the model. C50_defined: an expression in which no absolute value and no non-integral power is taken of zero is computed exactly where it is differentiable (and contains no pow(0, 0)). C50_abs_corner: abs of a value 0 returns the negated derivatives."
  },
  {
   "property": "C51",
   "status": "proved",
   "theorems": [
    "C51_comparisons",
    "C51_coherent"
   ],
   "note": ""
  },
  {
   "property": "C52",
   "status": "partial",
   "theorems": [
    "C52_nested_acos_refuted"
   ],
   "note": "Refuted: the branch for nested types computes cos as the value of acos."
  },
  {
   "property": "C53",
   "status": "partial",
   "theorems": [
    "C53_int_power_partial",
    "C53_int_power_wide",
    "C53_int_power_refuted"
   ],
   "note": "Refuted for unsigned int and 64-bit types, because the intermediate result is stored in an int. C53_int_power_partial: types with fewer than 32 bits, int, and every power that also fits into int. C53_int_power_wide says when 32- and 64-bit types give the right result: powers 0 and 1 always; an even power from 2 on exactly when the result fits into int; an odd power from 3 on whenever base^(power/2) fits into int, and for signed types only then (whether unsigned types have further correct odd powers is not settled)."
  },
  {
   "property": "C54",
   "status": "proved",
   "theorems": [
    "C54_sorts",
    "C54_unique"
   ],
   "note": ""
  },
  {
   "property": "C55",
   "status": "partial",
   "theorems": [
    "C55_level",
    "C55_messages_partial",
    "C55_console",
    "C55_set_list",
    "C55_flags",
    "C55_terminating_error",
    "C55_terminating_error_refuted"
   ],
   "note": "Refuted for TerminatingError, whose console output does not depend on the compile flag (C55_terminating_error describes it exactly). C55_messages_partial proves it for the other five message functions, C55_set_list for the list version of SetOutputLevel, and C55_flags that after it exactly the bits of the listed flags are set, in terms of the documented meaning of every flag."
  },
  {
   "property": "C56",
   "status": "proved",
   "theorems": [
    "C56_raises"
   ],
   "note": ""
  },
  {
   "property": "C57",
   "status": "partial",
   "theorems": [
    "C57_kept_partial",
    "C57_files",
    "C57_lost_after_error",
    "C57_truncated_refuted"
   ],
   "note": "Refuted: after a caught TerminatingError the next call reopens and thereby empties the files (C57_lost_after_error: always, for every file whose bit is set). C57_kept_partial: nothing is lost in histories without a TerminatingError raised while the bit of the file is set."
  },
  {
   "property": "C58",
   "status": "proved",
   "theorems": [
    "C58_componentwise",
    "C58_point_module",
    "C58_dot",
    "C58_norm"
   ],
   "note": ""
  },
  {
   "property": "C59",
   "status": "proved",
   "theorems": [
    "C59_equality",
    "C59_evaluate"
   ],
   "note": ""
  },
  {
   "property": "C60",
   "status": "proved",
   "theorems": [
    "C60_elevation_order"
   ],
   "note": ""
  },
  {
   "property": "C61",
   "status": "proved",
   "theorems": [
    "C61_sensitivity_polynomial_of_rational",
    "C61_sensitivity_rational_of_polynomial",
    "C61_sensitivity_rational_of_rational"
   ],
   "note": ""
  },
  {
   "property": "C62",
   "status": "proved",
   "theorems": [
    "C62_extract",
    "C62_bounding_box",
    "C62_corners",
    "C62_fits_exact",
    "C62_fit",
    "C62_flat",
    "C62_empty"
   ],
   "note": ""
  },
  {
   "property": "C63",
   "status": "proved",
   "theorems": [
    "C63_bounds",
    "C63_corners",
    "C63_fits_exact",
    "C63_empty"
   ],
   "note": ""
  },
  {
   "property": "C64",
   "status": "proved",
   "theorems": [
    "C64_compose",
    "C64_outside",
    "C64_sensitivity",
    "C64_polynomial_of_rational",
    "C64_rational_of_polynomial",
    "C64_rational_of_rational",
    "C64_sensitivity_polynomial_of_rational",
    "C64_sensitivity_rational_of_polynomial",
    "C64_sensitivity_rational_of_rational"
   ],
   "note": ""
  },
  {
   "property": "C65",
   "status": "proved",
   "theorems": [
    "C65_norm",
    "C65_scale",
    "C65_triangle",
    "C65_cauchy_schwarz"
   ],
   "note": ""
  },
  {
   "property": "C66",
   "status": "partial",
   "theorems": [
    "C66_integer_division_refuted",
    "C66_integer_division"
   ],
   "note": "False: the reciprocal is computed in the integral type, so (4,6)/2 is (0,0). C66_integer_division gives the exact result for every divisor."
  },
  {
   "property": "C67",
   "status": "proved",
   "theorems": [
    "C67_evaluate",
    "C67_evaluate_scalar",
    "C67_forward_evaluate",
    "C67_rational",
    "C67_parameters",
    "C67_control_points"
   ],
   "note": "Control points, weights and parameters may be arbitrary differentiable functions of the variables. C67_parameters and C67_control_points identify the derivatives with EvaluateDerivative and BasisFunctions. Exact arithmetic."
  },
  {
   "property": "C68",
   "status": "partial",
   "theorems": [
    "C68_assert",
    "C68_decode_partial",
    "C68_overflow_refuted",
    "C68_invalid_refuted",
    "C68_standard"
   ],
   "note": "False: well-formed text can make Decode write behind the vector (C68_overflow_refuted) and characters outside the alphabet count as zero (C68_invalid_refuted). C68_decode_partial gives the exact result for every text whose length is a multiple of four: the decoded bytes if they fit, otherwise undefined behaviour. C68_standard: text from any RFC 4648 encoder is read back."
  },
  {
   "property": "C69",
   "status": "proved",
   "theorems": [
    "C69_read",
    "C69_write"
   ],
   "note": "The index arithmetic of the variadic versions is 32 bits wide, hence the bound on the number of control points. ControlPoint(index...) of rational splines is covered by C43."
  },
  {
   "property": "C70",
   "status": "partial",
   "theorems": [
    "C70_hessian_partial",
    "C70_negative_pow_refuted"
   ],
   "note": "Every expression without acos (wrong in nested use, C52) whose powers with scalar exponents have positive bases; pow(x, s) with a negative x is refuted, as the nested version goes through the logarithm. Exact real arithmetic."
  },
  {
   "property": "C71",
   "status": "proved",
   "theorems": [
    "C71_evaluate",
    "C71_evaluate_scalar",
    "C71_magnitude",
    "C71_gamma",
    "C71_corners",
    "C71_rounding_exists",
    "C71_constant_inexact"
   ],
   "note": "Rounding operation by operation; no overflow or underflow, no fused multiply-add. C71_rounding_exists shows that the roundings quantified over exist for every precision. C71_constant_inexact is the constant line with coefficients 5 at 3/2^55 in double precision."
  },
  {
   "property": "C72",
   "status": "proved",
   "theorems": [
    "C72_basis",
    "C72_forward",
    "C72_forward_scalar",
    "C72_agreement"
   ],
   "note": "Same arithmetic as C71. The conversion of the binomial coefficients to the scalar type is rounded too."
  },
  {
   "property": "C73",
   "status": "proved",
   "theorems": [
    "C73_rational",
    "C73_magnitude"
   ],
   "note": "Same arithmetic as C71; the division of a point multiplies by the rounded inverse. The weighted control points and weights are taken as stored."
  },
  {
   "property": "C74",
   "status": "proved",
   "theorems": [
    "C74_add_comm",
    "C74_add_assoc",
    "C74_negation",
    "C74_scaling",
    "C74_mul_comm",
    "C74_mul_assoc",
    "C74_mul_one",
    "C74_distributive",
    "C74_dot",
    "C74_power"
   ],
   "note": "Equality of complete splines (degrees, sizes, control points). Exact scalars; in floating point the laws hold only up to rounding."
  },
  {
   "property": "C75",
   "status": "proved",
   "theorems": [
    "C75_separated",
    "C75_repeated",
    "C75_linear",
    "C75_elevation",
    "C75_split",
    "C75_product",
    "C75_power",
    "C75_chain"
   ],
   "note": "Real scalars. C75_separated shows that the hypothesis on the control-point type holds for real scalars and for points of every dimension."
  },
  {
   "property": "C76",
   "status": "proved",
   "theorems": [
    "C76_evaluate",
    "C76_order_elevate",
    "C76_split",
    "C76_compose",
    "C76_bounds",
    "C76_rational_elevate",
    "C76_rational_split"
   ],
   "note": "Exact scalars. Rational SplitAtPositions and rational Compose are not part of the statement."
  },
  {
   "property": "C77",
   "status": "proved",
   "theorems": [
    "C77_associative",
    "C77_linear",
    "C77_product",
    "C77_extract",
    "C77_split",
    "C77_identity"
   ],
   "note": "Equality of complete splines; exact scalars. The neutral element is stated for one parametric dimension."
  },
  {
   "property": "C78",
   "status": "proved",
   "theorems": [
    "C78_elevate_elevate",
    "C78_elevate_split",
    "C78_split_split",
    "C78_split_order",
    "C78_sum",
    "C78_product",
    "C78_extract",
    "C78_power"
   ],
   "note": "Equality of complete splines; exact scalars."
  },
  {
   "property": "C79",
   "status": "partial",
   "theorems": [
    "C79_sums",
    "C79_quadratic",
    "C79_envelope_refuted",
    "C79_envelope_partial"
   ],
   "note": "The envelope of the test is refuted by a witness; the bound with 2 e in place of 2 pi is proved. The other assertions are proved in full."
  },
  {
   "property": "C80",
   "status": "proved",
   "theorems": [
    "C80_tile",
    "C80_tile_fits",
    "C80_cross",
    "C80_disjoint",
    "C80_ring",
    "C80_joins",
    "C80_composition",
    "C80_program",
    "C80_few_segments"
   ],
   "note": "Exact real arithmetic with the sine, cosine and pi of the standard library. The program as it is in the repository does not compile (missing header, missing template argument); the model has a vector of rational splines where the argument is missing. C80_few_segments shows that the bound of half a turn per segment is needed."
  },
  {
   "property": "C81",
   "status": "proved",
   "theorems": [
    "C81_elevate",
    "C81_elevate_scalar",
    "C81_add",
    "C81_add_scalar",
    "C81_add_assign",
    "C81_add_assign_scalar",
    "C81_sub_assign",
    "C81_sub_assign_scalar"
   ],
   "note": "Same arithmetic as C71. The binary operator- is not covered: its loops do not terminate when the left operand has to be elevated (C19)."
  },
  {
   "property": "C82",
   "status": "proved",
   "theorems": [
    "C82_split",
    "C82_split_scalar"
   ],
   "note": "Same arithmetic as C71. The position is taken as given (it is a number of that arithmetic)."
  },
  {
   "property": "C83",
   "status": "proved",
   "theorems": [
    "C83_derivative",
    "C83_derivative_scalar"
   ],
   "note": "Same arithmetic as C71. What the exact derivative spline is, is C14."
  },
  {
   "property": "C84",
   "status": "proved",
   "theorems": [
    "C84_split",
    "C84_splits",
    "C84_watertight",
    "C84_pieces"
   ],
   "note": "C84_split and C84_splits assume no law of the arithmetic, so they also hold for floating-point numbers with overflow. Representable control points are those of the arithmetic itself; the pieces' control points are then representable, which C84_pieces uses."
  },
  {
   "property": "C85",
   "status": "proved",
   "theorems": [
    "C85_product",
    "C85_product_nonneg",
    "C85_product_point_scalar",
    "C85_product_scalar_point",
    "C85_dot_is",
    "C85_product_dot"
   ],
   "note": "Same arithmetic as C71; the binomial coefficients are those of the double precision table read as exact integers rounded once. The dot product of points is the one of src/point.hpp in rounded arithmetic (C85_dot_is)."
  },
  {
   "property": "C86",
   "status": "proved",
   "theorems": [
    "C86_power"
   ],
   "note": "Same arithmetic as C71. What the exact power is, is C23."
  },
  {
   "property": "C87",
   "status": "proved",
   "theorems": [
    "C87_compose",
    "C87_compose_scalar",
    "C87_sensitivity",
    "C87_outside"
   ],
   "note": "Same arithmetic as C71. The bounds count every product as if it had the largest degrees that occur, so they are not sharp."
  },
  {
   "property": "C88",
   "status": "proved",
   "theorems": [
    "C88_text",
    "C88_length",
    "C88_no_coordinate",
    "C88_read_back",
    "C88_integers",
    "C88_stream",
    "C88_AD",
    "C88_AD_point"
   ],
   "note": "How a built-in number is printed with a given precision is a parameter (the standard library's conversion); integers are modelled. Stream errors, locales, internal adjustment and further format flags are not modelled."
  },
  {
   "property": "C89",
   "status": "proved",
   "theorems": [
    "C89_evaluate",
    "C89_evaluate_scalar",
    "C89_underflow",
    "C89_corners",
    "C89_outside",
    "C89_formats",
    "C89_limits",
    "C89_rounding_exists"
   ],
   "note": "Infinities and NaN are one value, comparisons with it are false and zero has no sign; no fused operations. C89_formats: double and float are instances. C89_rounding_exists: there is such a rounding."
  },
  {
   "property": "C90",
   "status": "proved",
   "theorems": [
    "C90_split",
    "C90_split_scalar"
   ],
   "note": "Same arithmetic as C89."
  },
  {
   "property": "C91",
   "status": "proved",
   "theorems": [
    "C91_elevate",
    "C91_elevate_scalar"
   ],
   "note": "Same arithmetic as C89. The number of coefficients below 2^31 is the range of the int in ControlPoint indexing (C03)."
  },
  {
   "property": "C92",
   "status": "proved",
   "theorems": [
    "C92_split",
    "C92_split_scalar"
   ],
   "note": "Same arithmetic as C71. The values of the returned spline are exact values of the rounded coefficients."
  },
  {
   "property": "C93",
   "status": "proved",
   "theorems": [
    "C93_elevate",
    "C93_elevate_scalar"
   ],
   "note": "Same arithmetic as C71. The values of the returned spline are exact values of the rounded coefficients."
  },
  {
   "property": "C94",
   "status": "proved",
   "theorems": [
    "C94_product",
    "C94_product_point_scalar",
    "C94_product_dot"
   ],
   "note": "Same arithmetic as C71. The values of the returned spline are exact values of the rounded coefficients."
  },
  {
   "property": "C95",
   "status": "proved",
   "theorems": [
    "C95_sum",
    "C95_difference"
   ],
   "note": "Same arithmetic as C71. The values of the returned spline are exact values of the rounded coefficients."
  },
  {
   "property": "C96",
   "status": "proved",
   "theorems": [
    "C96_compose",
    "C96_compose_scalar"
   ],
   "note": "Same arithmetic as C71. The values of the returned spline are exact values of the rounded coefficients."
  },
  {
   "property": "C97",
   "status": "proved",
   "theorems": [
    "C97_split",
    "C97_splits",
    "C97_watertight",
    "C97_pieces"
   ],
   "note": "C97_split and C97_splits hold for any operations on the scalars; for evaluation the arithmetic is that of C71."
  },
  {
   "property": "C98",
   "status": "proved",
   "theorems": [
    "C98_evaluate",
    "C98_evaluate_scalar",
    "C98_factor",
    "C98_corners_scalar",
    "C98_small_weights",
    "C98_zero_weight",
    "C98_tie_exists",
    "C98_formats"
   ],
   "note": "Same arithmetic as C89. C98_small_weights and C98_zero_weight are witnesses that the condition on the weights cannot be dropped."
  },
  {
   "property": "C99",
   "status": "proved",
   "theorems": [
    "C99_evaluate",
    "C99_basis",
    "C99_elevate",
    "C99_update_degrees",
    "C99_derivative",
    "C99_affine",
    "C99_sums",
    "C99_products",
    "C99_dot",
    "C99_dot_is",
    "C99_power",
    "C99_extract",
    "C99_transpose",
    "C99_split",
    "C99_split_many",
    "C99_compose",
    "C99_rational_evaluate",
    "C99_rational_basis",
    "C99_rational_elevate",
    "C99_rational_derivative",
    "C99_rational_affine",
    "C99_rational_products",
    "C99_rational_dot",
    "C99_rational_split",
    "C99_rational_split_many",
    "C99_compose_rational",
    "C99_compose_rational_sensitivity"
   ],
   "note": "carries: same outcome for all values of the variables; carries_at, for operations that compare or divide: the outcome is the one at the current values, and the result tracks a function that agrees with the plain result wherever there is one. Exact real arithmetic. The corners (MaximumCorner, MinimumCorner, FitIntoUnitCube), whose gradients do not exist where the extremum changes, are not covered."
  },
  {
   "property": "C100",
   "status": "partial",
   "theorems": [
    "C100_sums_partial",
    "C100_sums_refuted"
   ],
   "note": "Proved if the comparison of the weights gives the same at all values of the variables. Refuted otherwise: 1/y + 1/1 at y = 1, whose weights agree in value but not in gradient, gets the derivative -2 instead of -1."
  },
  {
   "property": "C101",
   "status": "proved",
   "theorems": [
    "C101_evaluate",
    "C101_evaluate_scalar",
    "C101_forward",
    "C101_forward_scalar",
    "C101_rational",
    "C101_corners",
    "C101_plain",
    "C101_plain_scalar",
    "C101_rational_plain",
    "C101_contractions",
    "C101_line",
    "C101_differs"
   ],
   "note": "Evaluate_fma, ForwardEvaluate_fma and R_Evaluate_fma relate the input to all values the tree of operations can have; every occurrence of a subexpression is evaluated on its own, so the relation contains at least what compilers produce. Unbounded exponents as in C71. C101_line lists the values of a line completely, C101_differs is the witness."
  },
  {
   "property": "C102",
   "status": "partial",
   "theorems": [
    "C102_basis",
    "C102_forward_partial",
    "C102_forward_scalar_partial",
    "C102_half",
    "C102_half_scalar",
    "C102_forward_refuted",
    "C102_lost",
    "C102_formats"
   ],
   "note": "Proved: error bounds for the basis functions and for ForwardEvaluate (points and scalars) whenever the magnitude of the spline leaves a stated margin below the largest number; coefficients up to half the largest number always do. Without the margin the property is false: C102_forward_refuted gives, in double and single precision, a constant quadratic on which ForwardEvaluate overflows for every rounding to nearest while Evaluate is finite."
  },
  {
   "property": "C103",
   "status": "partial",
   "theorems": [
    "C103_points",
    "C103_wf",
    "C103_construct_partial",
    "C103_construct_refuted",
    "C103_index",
    "C103_product_partial",
    "C103_product_scalar_partial",
    "C103_product_refuted",
    "C103_product_zero_refuted"
   ],
   "note": "Proved whenever the degrees require fewer than 2^64 control points, with an exact description of what the constructor accepts otherwise (C103_points). The full property is refuted: C103_construct_refuted (three accepted malformed splines), C103_product_refuted (an empty product) and C103_product_zero_refuted (a product that is zero although no factor is)."
  },
  {
   "property": "C104",
   "status": "proved",
   "theorems": [
    "C104_fits",
    "C104_fits_scalar",
    "C104_fit",
    "C104_fit_scalar",
    "C104_fit_flat",
    "C104_fit_max_below",
    "C104_evaluate",
    "C104_evaluate_scalar",
    "C104_elevate",
    "C104_elevate_scalar",
    "C104_split",
    "C104_split_scalar",
    "C104_splits",
    "C104_rational_points",
    "C104_rational_points_scalar",
    "C104_rational_check",
    "C104_rational_check_scalar",
    "C104_rational_fits",
    "C104_rational_fits_scalar",
    "C104_rational_evaluate",
    "C104_rational_evaluate_scalar",
    "C104_rational_elevate",
    "C104_rational_elevate_scalar",
    "C104_rational_split",
    "C104_rational_split_scalar"
   ],
   "note": "Proved for point-valued and scalar-valued splines. C104_fit_max_below shows that the greatest coordinate does not always become 1 (the segment from 0 to 49 in double precision)."
  },
  {
   "property": "C105",
   "status": "proved",
   "theorems": [
    "C105_norms",
    "C105_distance",
    "C105_spread",
    "C105_corners",
    "C105_split",
    "C105_splits",
    "C105_halved",
    "C105_halved_distance",
    "C105_elevate",
    "C105_elevated",
    "C105_elevated_curve"
   ],
   "note": "Proved over the real numbers for any seminorm. C105_case shows that the distance bound and the bounds for second differences after a split and after an elevation are attained."
  },
  {
   "property": "C106",
   "status": "proved",
   "theorems": [
    "C106_bernstein",
    "C106_spline",
    "C106_compose",
    "C106_rational",
    "C106_compose_rational",
    "C106_decode",
    "C106_ad",
    "C106_points",
    "C106_points_short",
    "C106_points_surplus",
    "C106_table",
    "C106_decode_cut",
    "C106_ad_longer",
    "C106_ad_shorter",
    "C106_ad_input",
    "C106_rational_parts"
   ],
   "note": "Every modelled function with assertions, or calling one, has a counterpart without them (ModelRelease.v); they agree unless the debug function ends in AssertFail. Helpers that take functions as arguments are related in ProofRelease.v only. The statement about tables is for tables of at most 68 rows, the largest that fit in 64 bits."
  },
  {
   "property": "C107",
   "status": "proved",
   "theorems": [
    "C107_bernstein",
    "C107_basis",
    "C107_evaluate",
    "C107_evaluate_scalar",
    "C107_agree"
   ],
   "note": "Same arithmetic as C71. What the exact derivative is, is C07 and C14. The scalar version of the agreement between the two ways to the derivative is not stated; the points of dimension one cover it."
  },
  {
   "property": "C108",
   "status": "proved",
   "theorems": [
    "C108_evaluate",
    "C108_split",
    "C108_splits",
    "C108_elevate",
    "C108_sums",
    "C108_sums_values",
    "C108_derivative",
    "C108_derivative_values",
    "C108_power",
    "C108_compose",
    "C108_compose_values",
    "C108_elevate_limit",
    "C108_compose_limit",
    "C108_derivative_beyond",
    "C108_derivative_far_beyond"
   ],
   "note": "Model in ModelSize2.v; polynomial splines. The bounds 2^31 in the elevation and sum theorems on values are those of C13 and C17 (int and unsigned variables in OrderElevateAlongParametricDimension)."
  },
  {
   "property": "C109",
   "status": "proved",
   "theorems": [
    "C109_forms",
    "C109_monotone",
    "C109_convex",
    "C109_split",
    "C109_splits",
    "C109_elevate",
    "C109_variation",
    "C109_variation_rational",
    "C109_variation_split",
    "C109_variation_elevate"
   ],
   "note": "Over the real numbers. Values changing sign are treated for curves; the statements about splitting and elevation hold in every parametric dimension, line by line of the control net. Zeros are not counted with multiplicity: a change of sign needs values of strictly opposite signs."
  },
  {
   "property": "C110",
   "status": "partial",
   "theorems": [
    "C110_outcomes",
    "C110_update_degrees",
    "C110_update_degrees_refuted",
    "C110_elevate",
    "C110_elevate_refuted",
    "C110_assign",
    "C110_rational_elevate",
    "C110_rational_update"
   ],
   "note": "The full property is false (C110_update_degrees_refuted, C110_elevate_refuted). What is left of the object is exact. One limit stands for the memory during the whole call. Other functions that throw are const or check their arguments before they change anything."
  },
  {
   "property": "C111",
   "status": "proved",
   "theorems": [
    "C111_elevate",
    "C111_elevate_scalar",
    "C111_add",
    "C111_add_scalar",
    "C111_add_assign",
    "C111_add_assign_scalar",
    "C111_sub_assign",
    "C111_sub_assign_scalar",
    "C111_split",
    "C111_split_scalar",
    "C111_derivative",
    "C111_derivative_scalar",
    "C111_plain",
    "C111_plain_scalar"
   ],
   "note": "All trees of operations that contraction can produce are allowed, including contraction across stores to a control point, which is more than a compiler does. Unbounded exponents. Products and compositions are not covered."
  },
  {
   "property": "C112",
   "status": "proved",
   "theorems": [
    "C112_construct",
    "C112_construct_limit",
    "C112_evaluate",
    "C112_elevate",
    "C112_split",
    "C112_sums",
    "C112_sums_values",
    "C112_product",
    "C112_product_values",
    "C112_derivative",
    "C112_derivative_values",
    "C112_compose_pr",
    "C112_compose_rp",
    "C112_compose_rr",
    "C112_compose_values",
    "C112_derivative_constant"
   ],
   "note": "Model in ModelSize3.v. The bounds 2^31 in the theorems on values of elevations, sums, derivatives and compositions are those of C13 and C17. In the compositions the vectors of points and of weights share one limit. The derivative in a direction of degree zero is covered by C112_derivative_constant: undefined behaviour."
  },
  {
   "property": "C113",
   "status": "partial",
   "theorems": [
    "C113_basis",
    "C113_forward",
    "C113_derivative",
    "C113_rational",
    "C113_rational_derivative",
    "C113_limit",
    "C113_orders_limit",
    "C113_orders_zero",
    "C113_orders_one",
    "C113_orders_refuted"
   ],
   "note": "Model in ModelSize4.v. Proved for all orders with fewer than 2^64 derivatives; the full statement is refuted by C113_orders_refuted (orders 2 and 12297829382473034410) and, for undefined behaviour, by C113_orders_zero."
  },
  {
   "property": "C114",
   "status": "proved",
   "theorems": [
    "C114_polynomial",
    "C114_polynomial_scalar",
    "C114_rational",
    "C114_rational_scalar",
    "C114_sensitivity",
    "C114_rational_sensitivity",
    "C114_polynomial_inner_sensitivity",
    "C114_outside"
   ],
   "note": "Definitions in ModelRoundRat2.v. The sensitivities are those of ComposeSensitivity with a rational outer spline, a rational inner spline, or both."
  },
  {
   "property": "C115",
   "status": "proved",
   "theorems": [
    "C115_derivative",
    "C115_derivative_scalar"
   ],
   "note": "Definitions in ModelRoundRat3.v. Derivatives of order one in one direction, as the property says."
  },
  {
   "property": "C116",
   "status": "proved",
   "theorems": [
    "C116_splits",
    "C116_splits_scalar",
    "C116_planes",
    "C116_planes_scalar",
    "C116_rational",
    "C116_rational_scalar",
    "C116_spurious"
   ],
   "note": "Definitions in ModelRound.v, ModelRoundRat.v and ModelRoundSplit.v; the cuts are the ones the computed relative positions really make. Planes between 1 - 3u and 1 are outside the positive theorems; C116_spurious shows that the function can throw there."
  },
  {
   "property": "C117",
   "status": "proved",
   "theorems": [
    "C117_splits",
    "C117_splits_scalar",
    "C117_planes",
    "C117_planes_scalar"
   ],
   "note": "Definitions in ModelIEEE.v and ModelIEEESplit.v. Planes between 1 - 3u and 1 are outside the theorems; C116_spurious shows that the function can throw there. Rational splines are not covered with bounded exponents."
  },
  {
   "property": "C118",
   "status": "proved",
   "theorems": [
    "C118_split",
    "C118_split_scalar",
    "C118_splits",
    "C118_splits_scalar"
   ],
   "note": "Definitions in ModelIEEE.v and ModelIEEESplit.v. Infinities and NaN are one value, so only what holds for all of them is stated. For planes that satisfy C117 no exception is thrown; between 1 - 3u and 1 C116_spurious gives an exception that exact arithmetic would not throw."
  },
  {
   "property": "C119",
   "status": "proved",
   "theorems": [
    "C119_rational",
    "C119_rational_scalar"
   ],
   "note": "Definitions in ModelIEEESplitRat.v. The bound on the value has no rounding of the evaluation in it: the parts are compared in exact arithmetic. C98 covers the evaluation."
  }
 ]
}