{
 "claims": [
  {
   "property": "C01",
   "status": "proved",
   "theorems": [
    "C01_eval",
    "C01_eval_symbolic"
   ],
   "note": ""
  },
  {
   "property": "C02",
   "status": "partial",
   "theorems": [
    "C02_pinf",
    "C02_ninf_partial",
    "C02_ninf_refuted",
    "C02_doubles",
    "C02_doubles_nan",
    "C02_doubles_error",
    "C02_ninf_iff"
   ],
   "note": "The full claim is false of the code at -inf: parity is taken from the template order, not from the degree (refuted). Proved: +inf always, -inf when the degree has the parity of the order. C02_doubles: the same function on doubles, exact value at both infinities. C02_doubles_error: at finite doubles, the rounding error of the value. C02_ninf_iff: right at -inf exactly when the degree (if not 0) has the parity of the order."
  },
  {
   "property": "C03",
   "status": "proved",
   "theorems": [
    "C03_eval_derivatives"
   ],
   "note": ""
  },
  {
   "property": "C04",
   "status": "proved",
   "theorems": [
    "C04_division",
    "C04_division_by_zero"
   ],
   "note": ""
  },
  {
   "property": "C05",
   "status": "proved",
   "theorems": [
    "C05_derivative",
    "C05_other_variable"
   ],
   "note": ""
  },
  {
   "property": "C06",
   "status": "proved",
   "theorems": [
    "C06_shift",
    "C06_shift_unity"
   ],
   "note": ""
  },
  {
   "property": "C07",
   "status": "proved",
   "theorems": [
    "C07_invert_taylor_shift"
   ],
   "note": ""
  },
  {
   "property": "C08",
   "status": "proved",
   "theorems": [
    "C08_reflect",
    "C08_scale"
   ],
   "note": ""
  },
  {
   "property": "C09",
   "status": "partial",
   "theorems": [
    "C09_deflate_partial",
    "C09_deflate_zero_root",
    "C09_order1_refuted",
    "C09_deflate_iff",
    "C09_deflate_doubles"
   ],
   "note": "Proved for order >= 2 and for the zero root at any order; at order 1 with a non-zero root the code reads outside its array for every input (refuted). C09_deflate_iff is the exact condition. C09_deflate_doubles: in doubles, for any root, (x - root) b = a up to rounding in every coefficient but the one where the recurrences meet."
  },
  {
   "property": "C10",
   "status": "partial",
   "theorems": [
    "C10_add",
    "C10_sub",
    "C10_mul",
    "C10_div_const",
    "C10_neg",
    "C10_var_and_const",
    "C10_add_var",
    "C10_mul_same_var_partial",
    "C10_mul_other_var_refuted",
    "C10_int_div_refuted"
   ],
   "note": "Proved in one variable with real coefficients. Refuted: the product rule also fires for two different variables, and integer coefficients are divided with truncation."
  },
  {
   "property": "C11",
   "status": "proved",
   "theorems": [
    "C11_construct",
    "C11_construct_range",
    "C11_change_order"
   ],
   "note": ""
  },
  {
   "property": "C12",
   "status": "partial",
   "theorems": [
    "C12_linear",
    "C12_quadratic_partial",
    "C12_double_zero_refuted",
    "C12_overflow_approximation",
    "C12_overflow_refuted",
    "C12_quadratic_iff"
   ],
   "note": "Exact roots below the overflow threshold; c*x^2 lists its double root 0 twice (refuted). Above the threshold the two values approximate the roots with relative error 4|ac|/b^2 when that is at most 1/2, but two values are returned for some quadratics without real roots (refuted). C12_quadratic_iff: the list is exactly the roots, increasing, iff c = 0, or a = 0 and b <> 0, or a <> 0 and |b| <= ms |c|."
  },
  {
   "property": "C13",
   "status": "partial",
   "theorems": [
    "C13_cubic_partial",
    "C13_degenerate",
    "C13_overflow_refuted"
   ],
   "note": "Exact real roots when the coefficients are small enough that no overflow-avoiding branch is taken; in such a branch a value far from every root can be returned (refuted)."
  },
  {
   "property": "C14",
   "status": "partial",
   "theorems": [
    "C14_sturm_partial",
    "C14_padded",
    "C14_vas_partial",
    "C14_vca_partial",
    "C14_zero_root_refuted",
    "C14_multiple_root_refuted",
    "C14_touching_root_refuted"
   ],
   "note": "Default (Sturm) mode: terminates and returns every distinct real root up to the bisection tolerance, sorted, when the constant and leading coefficients are non-zero and, on each side of zero, the roots are simple or (whatever their multiplicity) none is at a point reached by halving the computed bounds. C14_padded: leading zero coefficients and factors x^k, any mode: exactly the non-zero roots. VAS mode: whenever it returns. Refuted: a polynomial with a zero constant coefficient loses the root 0; a double root hit by a halving loses the simple root next to it; a simple root hit by a halving loses a double root next to it. VCA mode: for simple roots off the dyadic grid of the bound it returns exactly the roots or throws because a bisection of a proper bracket ran out of its 2^64-2 passes."
  },
  {
   "property": "C15",
   "status": "partial",
   "theorems": [
    "C15_sturm",
    "C15_sturm_swapped",
    "C15_sturm_pinf",
    "C15_sturm_ninf_partial",
    "C15_ninf_refuted",
    "C15_sturm_ninf_degrees_partial"
   ],
   "note": "Finite intervals in either order and (a,+inf). (-inf,b] only when every chain member is evaluated correctly at -inf; refuted in general by x^4 + x."
  },
  {
   "property": "C16",
   "status": "proved",
   "theorems": [
    "C16_descartes",
    "C16_roots_exist",
    "C16_zero",
    "C16_one"
   ],
   "note": ""
  },
  {
   "property": "C17",
   "status": "proved",
   "theorems": [
    "C17_budan",
    "C17_alesina_galuzzi",
    "C17_zero",
    "C17_one"
   ],
   "note": ""
  },
  {
   "property": "C18",
   "status": "partial",
   "theorems": [
    "C18_bounds",
    "C18_any_order",
    "C18_shift_ub_refuted"
   ],
   "note": "Strict bounds for every polynomial with at most 31 coefficients, and for any order whenever the function returns; with 32 coefficients the int shift can overflow (refuted by a concrete polynomial)."
  },
  {
   "property": "C19",
   "status": "partial",
   "theorems": [
    "C19_vca_partial",
    "C19_vca_terminates",
    "C19_midpoint_refuted",
    "C19_multiple_root_refuted",
    "C19_returns_iff"
   ],
   "note": "C19_returns_iff: on polynomials of order below 31 VCA returns exactly when every positive multiple root is a dyadic fraction of the bound, and otherwise recurses for ever. When it returns every interval has exactly one root, intervals are disjoint, every positive root that is not a dyadic multiple of the bound is covered. A root on a bisection point is lost (refuted), and a multiple root off the bisection points makes it recurse for ever (refuted)."
  },
  {
   "property": "C20",
   "status": "proved",
   "theorems": [
    "C20_moebius"
   ],
   "note": ""
  },
  {
   "property": "C21",
   "status": "proved",
   "theorems": [
    "C21_vas",
    "C21_vas_partial",
    "C21_vas_safe",
    "C21_multiple_root_refuted"
   ],
   "note": "C21_vas: terminates and isolates for simple positive roots, non-zero constant coefficient, order below 31. C21_vas_partial: whenever it returns. C21_multiple_root_refuted: it never returns when a positive root is multiple."
  },
  {
   "property": "C22",
   "status": "partial",
   "theorems": [
    "C22_bisection",
    "C22_bisection_root",
    "C22_invalid",
    "C22_terminates_on_grid",
    "C22_precision_refuted"
   ],
   "note": "Bracketing, containment, rejection and (on any finite number grid) termination are proved; the requested precision is refuted as a stopping criterion: the loop compares each midpoint with a fixed end point."
  },
  {
   "property": "C23",
   "status": "proved",
   "theorems": [
    "C23_newton_raphson",
    "C23_halleys_method",
    "C23_steps_descend",
    "C23_newton_path",
    "C23_halley_path",
    "C23_next_unique",
    "C23_halley_root_refuted"
   ],
   "note": "C23_newton_path and C23_halley_path pin the whole path (spec in NumericSpec.v, deterministic by C23_next_unique). C23_halley_root_refuted is an additional finding: success does not imply a root is near."
  },
  {
   "property": "C24",
   "status": "proved",
   "theorems": [
    "C24_debug",
    "C24_release",
    "C24_debug_safe",
    "C24_release_unchecked",
    "C24_construct",
    "C24_copy"
   ],
   "note": "back() on an empty vector (which the code answers with the first slot) is excluded from the refinement."
  },
  {
   "property": "C25",
   "status": "proved",
   "theorems": [
    "C25_static_list"
   ],
   "note": ""
  },
  {
   "property": "C26",
   "status": "proved",
   "theorems": [
    "C26_addressing",
    "C26_read_write",
    "C26_chained",
    "C26_resize",
    "C26_push_back",
    "C26_constructor_refuted",
    "C26_size",
    "C26_construct"
   ],
   "note": "For arrays with one stored element per coordinate; the constructor taking dimensions and values does not establish this (C26_constructor_refuted)."
  },
  {
   "property": "C27",
   "status": "proved",
   "theorems": [
    "C27_arrays",
    "C27_scalar"
   ],
   "note": "The free operators choose these functions; overload resolution is not modelled."
  },
  {
   "property": "C28",
   "status": "proved",
   "theorems": [
    "C28_strip",
    "C28_unique"
   ],
   "note": ""
  },
  {
   "property": "C29",
   "status": "proved",
   "theorems": [
    "C29_search_replace",
    "C29_empty_pattern_refuted"
   ],
   "note": "The property excludes empty patterns; C29_empty_pattern_refuted shows the call never ends for them."
  },
  {
   "property": "C30",
   "status": "partial",
   "theorems": [
    "C30_equality_is_an_equivalence",
    "C30_equality_is_identity",
    "C30_hash_respects_equality_partial",
    "C30_hash_dictionaries_refuted",
    "C30_doubles",
    "C30_doubles_hash_partial",
    "C30_shortcut",
    "C30_same_object",
    "C30_nan_refuted",
    "C30_signed_zero_refuted",
    "C30_equal_iff",
    "C30_doubles_equal_iff",
    "C30_hash_same_order",
    "C30_doubles_hash_same_order"
   ],
   "note": "Real constants: an equivalence relation for all expressions with well-formed dictionaries. Double constants: symmetric and transitive, reflexive exactly when no constant is a NaN (C30_doubles; C30_nan_refuted). The shortcut for identical objects changes no result without NaN (C30_shortcut). Equal hashes are proved for expressions without dictionaries; two equal dictionaries with different iteration order hash differently (refuted). 1/0.0 and 1/-0.0 are equal expressions with different values (refuted). C30_equal_iff: equal means the same up to the order of dictionary entries; C30_hash_same_order: equal hashes whenever dictionaries list their keys in the same order."
  },
  {
   "property": "C31",
   "status": "partial",
   "theorems": [
    "C31_simplify_preserves_value_partial",
    "C31_zero_times_array_refuted"
   ],
   "note": "Proved for all expressions without units (arrays, dictionaries and equations included) and for array-free expressions with units outside right factors; the missing case is refuted under C38, and 0*array loses its shape (refuted)."
  },
  {
   "property": "C32",
   "status": "partial",
   "theorems": [
    "C32_constants_fold",
    "C32_constants_fold_value",
    "C32_shrinks",
    "C32_fixed_point_reached",
    "C32_idempotent_partial",
    "C32_idempotent_refuted"
   ],
   "note": "Constant folding is proved for every number type. Idempotence is refuted (1/2*(2*x)); proved: a fixed point is reached within size-many rounds, and one round suffices when no product by the number 0 or 1 remains. Array-free, unit-free expressions."
  },
  {
   "property": "C33",
   "status": "partial",
   "theorems": [
    "C33_substitute_variable",
    "C33_substitute_dictionary",
    "C33_no_occurrence",
    "C33_inside_dictionary_refuted"
   ],
   "note": "For every expression in which no dictionary mentions a substituted variable; dictionary values are not substituted by the code (refuted)."
  },
  {
   "property": "C34",
   "status": "proved",
   "theorems": [
    "C34_derivative",
    "C34_computed",
    "C34_needs_variable",
    "C34_square_root_refuted"
   ],
   "note": "Total correctness for every expression and point where the rules apply; C34_square_root_refuted shows why a zero base with a non-integer exponent is excluded."
  },
  {
   "property": "C35",
   "status": "partial",
   "theorems": [
    "C35_parser_terminates",
    "C35_accepts_sentences",
    "C35_layout_unique",
    "C35_no_undefined_behaviour_partial",
    "C35_constructor_total_partial",
    "C35_dictionary_key_refuted",
    "C35_array_power_refuted",
    "C35_undefined_only_keys",
    "C35_one_brace_partial",
    "C35_dictionary_keys_refuted",
    "C35_constructor_ends_partial"
   ],
   "note": "Termination of the parser and completeness of consumption hold for every byte string. Undefined behaviour needs a dictionary key in which a dictionary is an operand (C35_undefined_only_keys: strings without such a key, in particular with at most one brace, are safe), and every such key, first in its dictionary, is undefined behaviour (C35_dictionary_keys_refuted). Totality of the constructor, which also simplifies, is proved for strings without braces, brackets and plus-minus; refuted for [x]^[y]. C35_constructor_ends_partial: with at most one opening brace and no power sign or no bracket the constructor always ends."
  },
  {
   "property": "C36",
   "status": "proved",
   "theorems": [
    "C36_parse_iff_grouped",
    "C36_grouped_accepted",
    "C36_chain",
    "C36_two_operators",
    "C36_two_operators_decided",
    "C36_left_chain",
    "C36_right_chain",
    "C36_sign",
    "C36_postfix_refuted"
   ],
   "note": "For every sentence whose tokens have no access/units directly followed by units or plus-minus; those the parser rejects (C36_postfix_refuted), although they are not infix chains."
  },
  {
   "property": "C37",
   "status": "partial",
   "theorems": [
    "C37_print_parse_partial",
    "C37_integer_trees_partial",
    "C37_refuted",
    "C37_reads_back_iff",
    "C37_integers_iff",
    "C37_brackets",
    "C37_bars"
   ],
   "note": "Proved for all expressions (arrays and dictionaries included) without the shapes of C37_refuted: power of a power or equation of an equation on the left, negative constants, negated constants, dictionaries as operands. With forced parentheses the first two restrictions vanish. C37_reads_back_iff is exact: for every tree of numbers, names, functions, operators and arrays the text is read back as the same tree iff no minus sign stands before a number and (unless parentheses are forced) no right-grouping operator has itself as left operand and no operator tighter than the sign has a left operand ending in a negative number. C37_brackets, C37_bars: brackets of every printed text match, and there are two bars for every absolute value. The iff covers dictionaries too (names as keys, each once): a sentence that names a key twice has more colons than its expression has entries."
  },
  {
   "property": "C38",
   "status": "partial",
   "theorems": [
    "C38_quantity_times_quantity",
    "C38_value_preserved",
    "C38_quantity_times_scalar",
    "C38_quantity_times_array",
    "C38_uncertainty",
    "C38_scalar_times_quantity_refuted",
    "C38_array_times_quantity_refuted"
   ],
   "note": "Products and quotients of quantities, quantity times scalar, quantity times array and the reduction of an uncertainty are proved; scalar times quantity and array times quantity carry the wrong unit in the code (refuted)."
  },
  {
   "property": "C39",
   "status": "partial",
   "theorems": [
    "C39_taylor_coefficients_partial",
    "C39_other_variable",
    "C39_power_at_zero_refuted",
    "C39_unsupported_node_refuted"
   ],
   "note": "Proved for every order, point and expression over + - * / exp ln sin cos and powers, at points where divisors, arguments of ln and bases of powers are in the open domain. x^2 at 0 gives NaN (refuted), negation and abs have no overload (endless recursion)."
  },
  {
   "property": "C40",
   "status": "partial",
   "theorems": [
    "C40_taylor_polynomial_partial",
    "C40_exact_for_polynomials_partial",
    "C40_order_21",
    "C40_trig_refuted"
   ],
   "note": "For every order, expression and expansion point where the expression is regular: the result is the Taylor polynomial, and equals f for polynomials of order <= N. Fails where sin/cos of a constant come from the table of C41 (cos around pi: refuted), and truncating int divisions are excluded. Orders above 20 do not compile."
  },
  {
   "property": "C41",
   "status": "partial",
   "theorems": [
    "C41_exact",
    "C41_division_by_zero",
    "C41_equality",
    "C41_neg_abs",
    "C41_sin_partial",
    "C41_cos_partial",
    "C41_trig_refuted",
    "C41_sin_iff",
    "C41_cos_iff",
    "C41_kept_iff"
   ],
   "note": "Arithmetic is exact for every pair of rational constants. Where sin and cos give a constant it is right exactly when the argument is not (2m+3/2) pi, resp. not an odd multiple of pi (C41_sin_iff, C41_cos_iff; the code gives sin(3 pi/2)=1 and cos(pi)=1: C41_trig_refuted). C41_kept_iff: they stay symbolic exactly off the multiples of half the library's pi."
  },
  {
   "property": "C42",
   "status": "proved",
   "theorems": [
    "C42_factorial"
   ],
   "note": ""
  },
  {
   "property": "C43",
   "status": "proved",
   "theorems": [
    "C43_integrate"
   ],
   "note": "For every expression that integrate accepts. Constant multiples of x are not accepted (C43_tests)."
  },
  {
   "property": "C44",
   "status": "partial",
   "theorems": [
    "C44_simplify_keeps_values_partial",
    "C44_simplify_value_partial",
    "C44_no_new_values_refuted",
    "C44_square_does_not_compile",
    "C44_trig_refuted",
    "C44_cube_root"
   ],
   "note": "simplify and N with all their rules, for every expression. Fails at the sin/cos table points (cos(pi*1) becomes 1: refuted). Excluded: int divisions, matrices and polynomials inside expressions. With the either-sign function simplification can add values (refuted)."
  },
  {
   "property": "C45",
   "status": "partial",
   "theorems": [
    "C45_volume",
    "C45_area_partial",
    "C45_area_refuted",
    "C45_area_iff"
   ],
   "note": "Volume for every dimension; the surface area is right exactly in dimension 3 (C45_area_iff)."
  },
  {
   "property": "C46",
   "status": "proved",
   "theorems": [
    "C46_balls"
   ],
   "note": ""
  },
  {
   "property": "C47",
   "status": "proved",
   "theorems": [
    "C47_symmetric",
    "C47_overlap",
    "C47_intersects",
    "C47_normal_length_refuted"
   ],
   "note": "C47_normal_length_refuted shows why half-spaces need a unit normal."
  },
  {
   "property": "C48",
   "status": "partial",
   "theorems": [
    "C48_paths_distinct",
    "C48_index_partial",
    "C48_index_refuted",
    "C48_index_iff"
   ],
   "note": "Distinct nodes have distinct paths (names without slash and bracket). The index is the number of earlier equally named siblings exactly when at every level these are not preceded by other names (C48_index_iff); otherwise refuted."
  },
  {
   "property": "C49",
   "status": "partial",
   "theorems": [
    "C49_operators",
    "C49_reflected_partial",
    "C49_reflected_exchanged",
    "C49_reflected_refuted",
    "C49_reflected_minus_iff",
    "C49_reflected_div_iff"
   ],
   "note": "+ and * with a number on the left are right; - and / exchange the operands (refuted: 2-x gives x-2). The two iff theorems say exactly when the exchange does no harm."
  },
  {
   "property": "C50",
   "status": "proved",
   "theorems": [
    "C50_argument_kinds"
   ],
   "note": ""
  },
  {
   "property": "C51",
   "status": "proved",
   "theorems": [
    "C51_first_match",
    "C51_valid"
   ],
   "note": ""
  },
  {
   "property": "C52",
   "status": "proved",
   "theorems": [
    "C52_subtraction_precision",
    "C52_addition_precision"
   ],
   "note": ""
  },
  {
   "property": "C53",
   "status": "partial",
   "theorems": [
    "C53_terminates_partial",
    "C53_array_power_refuted",
    "C53_array_power_endless"
   ],
   "note": "Proved for every expression (units, powers, arrays, dictionaries included) in which no power has an array both in its base and in its exponent; array^array recurses for ever (refuted). C53_array_power_endless: a power of two array literals never returns, whatever the elements."
  },
  {
   "property": "C54",
   "status": "partial",
   "theorems": [
    "C54_substitution_partial",
    "C54_substitution_value_partial",
    "C54_int_division_refuted",
    "C54_trig_refuted"
   ],
   "note": "Fails at the sin/cos table points (cos(y) at y = pi: refuted). Division of two ints truncates (refuted)."
  },
  {
   "property": "C55",
   "status": "proved",
   "theorems": [
    "C55_derivative",
    "C55_derivative_value",
    "C55_constant_divisor_does_not_compile"
   ],
   "note": "differentiable_at spells out the points excluded."
  },
  {
   "property": "C56",
   "status": "proved",
   "theorems": [
    "C56_evaluate",
    "C56_evaluate_derivative",
    "C56_doubles"
   ],
   "note": " C56_doubles: with doubles the result is that of the operations done one by one, if all are finite."
  },
  {
   "property": "C57",
   "status": "partial",
   "theorems": [
    "C57_message",
    "C57_after_copy",
    "C57_append_to_caught_refuted"
   ],
   "note": "Message and copies for every text without NUL; streaming into a copy (hence into any caught exception) overwrites the beginning of the message (C57_after_copy says exactly how; refuted)."
  },
  {
   "property": "C58",
   "status": "partial",
   "theorems": [
    "C58_children",
    "C58_back_and_forth",
    "C58_parent",
    "C58_add_node",
    "C58_safe",
    "C58_missing_node_refuted",
    "C58_invalid_write_refuted",
    "C58_undefined_iff"
   ],
   "note": "Navigation and building for every history of calls. Missing nodes are not reported when the name is a std::string, and getName/add_node/... on an invalid node dereference null (refuted). C58_undefined_iff lists exactly which calls are undefined."
  },
  {
   "property": "C59",
   "status": "partial",
   "theorems": [
    "C59_add_attribute",
    "C59_enumeration",
    "C59_assign",
    "C59_append_partial",
    "C59_append_refuted",
    "C59_missing_attribute_refuted",
    "C59_append_iff",
    "C59_append_assigned"
   ],
   "note": "Everything for documents the program built; for a parsed document += appends to all the text after the value (refuted), and getAttribute<std::string> does not report a missing attribute (refuted). C59_append_iff is the exact condition."
  },
  {
   "property": "C60",
   "status": "partial",
   "theorems": [
    "C60_position_partial",
    "C60_newline_refuted",
    "C60_first_line_refuted",
    "C60_defined_iff",
    "C60_column_iff"
   ],
   "note": "Exact: a report is made unless the error is at a newline that is not the first character (then undefined behaviour); its line is always right, its column exactly when not in the second line of a document that begins with a newline (there one too large)."
  },
  {
   "property": "C61",
   "status": "proved",
   "theorems": [
    "C61_newton",
    "C61_exact",
    "C61_fixed_point",
    "C61_low_order",
    "C61_guess_dropped"
   ],
   "note": "For every polynomial with non-zero leading coefficient and monic guess over exact arithmetic; a singular Jacobian makes the call throw. C61_guess_dropped: with a zero leading coefficient the guess of the caller is not used."
  },
  {
   "property": "C62",
   "status": "partial",
   "theorems": [
    "C62_bound_partial",
    "C62_bound_any_sign",
    "C62_round_to_nearest",
    "C62_negative_constant_refuted",
    "C62_doubles_partial",
    "C62_doubles_infinite",
    "C62_doubles_negative_refuted",
    "C62_underflow_refuted"
   ],
   "note": "Proved for a constant coefficient >= 0. The code forgets to take |f[0]|: for a negative constant coefficient the estimate can be negative (refuted); C62_bound_any_sign says by how much it can fall short. C62_doubles_partial: value and estimate both computed in binary64, orders up to 2^39; needs powers of x that do not underflow (otherwise refuted: the estimate can be 0)."
  },
  {
   "property": "C63",
   "status": "proved",
   "theorems": [
    "C63_expand_keeps_values",
    "C63_expand_ends",
    "C63_expand_polynomial",
    "C63_same_function",
    "C63_square_refuted",
    "C63_int_division_refuted",
    "C63_two_variables_refuted",
    "C63_leaves"
   ],
   "note": "The refutations show the exceptions named in the statement: expand(x*x) is pow(x,C<2>()), expand(x/2) with an int 2 is the zero polynomial, expand(x*y) is x^2. sin and cos at the table points of C41 are excluded (off_table)."
  },
  {
   "property": "C64",
   "status": "proved",
   "theorems": [
    "C64_text_form",
    "C64_text_value",
    "C64_text_determines",
    "C64_whole_text_refuted"
   ],
   "note": "Coefficients and exponents are exact reals; number printing and reading are parameters that must agree on the coefficients (C64_ex: all integer coefficients qualify). C64_whole_text_refuted proves the last sentence of the statement."
  },
  {
   "property": "C65",
   "status": "partial",
   "theorems": [
    "C65_numbers",
    "C65_accepted_partial",
    "C65_double_superscript_refuted",
    "C65_plus_minus_refuted",
    "C65_logarithm_refuted",
    "C65_accepted_iff"
   ],
   "note": "C65_accepted_iff: accepted exactly when the expression has no ln and, unless all parentheses are written, no variable directly after a plus-minus sign and no base of a power that ends in a superscript. Proved for every expression without ln, without a variable directly after the plus-minus sign, and without an unparenthesised base that ends in a superscript. Each of the three exceptions is refuted in general: ln prints a closing brace that was never opened, y+-x prints the unknown command \\pmx, and (x^y)^z, exp(x)^2, 1e20^x print a double superscript."
  },
  {
   "property": "C66",
   "status": "proved",
   "theorems": [
    "C66_exit_status",
    "C66_passes_iff",
    "C66_close",
    "C66_close_asymmetric",
    "C66_close_symmetric",
    "C66_small",
    "C66_small_any_tolerance",
    "C66_close_any_tolerance"
   ],
   "note": "C66_exit_status is exact also beyond 2^64 failures (the counter wraps). C66_close_asymmetric: with a first argument 0 the tolerance is absolute, with a second argument 0 the check never holds."
  },
  {
   "property": "C67",
   "status": "partial",
   "theorems": [
    "C67_bisection",
    "C67_iterations",
    "C67_refuses",
    "C67_overflow_refuted",
    "C67_nan_bounds",
    "C67_default_precision"
   ],
   "note": "Complete for bounds below 2^1023 in magnitude, any function and any iteration limit, with a bound of 5057 evaluations. Beyond, low+high overflows and bisection reports success with x = infinity (refuted). C67_nan_bounds: a NaN bound is not refused; all iterations are spent evaluating at NaN."
  },
  {
   "property": "C68",
   "status": "partial",
   "theorems": [
    "C68_newton_partial",
    "C68_halley_partial",
    "C68_newton_fallback",
    "C68_halley_fallback",
    "C68_newton_nan_refuted",
    "C68_cubic_hang_refuted",
    "C68_steps_refused"
   ],
   "note": "Success gives a point within the bounds that satisfies one of the stopping criteria, for every f that is not zero at NaN; where no Newton or Halley step exists bisection takes over and ends within 5055 passes. Termination in general is refuted: an overflow in f makes the iteration accept a NaN and spin through all 2^64-2 passes; solve_real_roots of a cubic with four finite coefficients does so."
  },
  {
   "property": "C69",
   "status": "partial",
   "theorems": [
    "C69_backward_partial",
    "C69_accurate_partial",
    "C69_no_roots_partial",
    "C69_linear",
    "C69_drops_to_linear",
    "C69_zero_constant",
    "C69_overflow_refuted",
    "C69_double_root_refuted",
    "C69_order"
   ],
   "note": "Proved for coefficients of magnitude 2^-200 to 2^200 (b may be 0; in C69_accurate_partial b may be anything up to 2^200). Outside, dividing by the leading coefficient can overflow and roots are invented (refuted). Two close roots can be reported as one (refuted), which the backward error explains. C69_order: at most two values, in order, for any three doubles."
  },
  {
   "property": "C70",
   "status": "partial",
   "theorems": [
    "C70_value_kept_partial",
    "C70_evaluates",
    "C70_reassociation_refuted",
    "C70_zero_times_infinity_refuted",
    "C70_sign_of_zero_refuted"
   ],
   "note": "Holds when every intermediate result is finite and no product that depends on a variable lies inside a factor of a product (without variables: always when finite). Otherwise refuted: regrouped constants overflow, 0*x for infinite x, 1/(0-x) at 0. Assumes of libm that results depend on the value of the arguments and that 1^y and x^1 are exact."
  },
  {
   "property": "C71",
   "status": "partial",
   "theorems": [
    "C71_positive_partial",
    "C71_count",
    "C71_both_signs",
    "C71_missing_roots_refuted",
    "C71_phantom_roots_refuted",
    "C71_never_returns_refuted"
   ],
   "note": "Default (Sturm) mode with Flocq binary64, pow a parameter. Termination, memory safety and the certificate of each reported value need finite bounds between 2^-900 and 2^1000 and no interval a few ulps wide that the loop reproduces (a trap; excluded by hypothesis, and absent when the computed sign change count is monotone: C71_count). Refuted: two real roots not reported, two values reported for a polynomial without real roots, and a search that never ends when the bound overflows."
  },
  {
   "property": "C72",
   "status": "partial",
   "theorems": [
    "C72_newton_linear",
    "C72_newton_quadratic",
    "C72_halley_homographic",
    "C72_halley_cubic",
    "C72_schroeder_refuted",
    "C72_schroeder_iff"
   ],
   "note": "Exact real arithmetic. Newton and Halley proved; the Schroeder step of the code has 2 f f' in place of f/f' and does not converge (refuted). C72_schroeder_iff: it is Schroeder's point just when f = 0 or 2 f'^2 = 1."
  },
  {
   "property": "C73",
   "status": "proved",
   "theorems": [
    "C73_bounds",
    "C73_solver_partial"
   ],
   "note": "C73_bounds covers the whole statement. C73_solver_partial puts it together with C71 (same exception: a trap). pow is a parameter with an accuracy hypothesis, met by correct rounding (ideal_pow_accurate)."
  },
  {
   "property": "C74",
   "status": "proved",
   "theorems": [
    "C74_encloses",
    "C74_interval",
    "C74_total",
    "C74_constants_stay_symbolic",
    "C74_int_refuted",
    "C74_not_tight_refuted",
    "C74_printed",
    "C74_printed_doubles"
   ],
   "note": "The Boost interval type is a parameter with the inclusion property (Boost is not in the repository); an exact instance is given. Doubles outside intervals are exact reals. sin, cos, exp, log and pow of intervals are outside (do not compile or not modelled)."
  },
  {
   "property": "C75",
   "status": "proved",
   "theorems": [
    "C75_cubic",
    "C75_drops",
    "C75_zero_root",
    "C75_pure",
    "C69_order"
   ],
   "note": "Flocq binary64; cbrt, cos, acos arbitrary. Says nothing about the accuracy of the values, and termination in practice is refuted by C68_cubic_hang_refuted."
  },
  {
   "property": "C76",
   "status": "proved",
   "theorems": [
    "C76_value",
    "C76_reads_back",
    "C76_distinct",
    "C76_minus_sign",
    "C76_expressions",
    "C76_whole_numbers",
    "C76_reader_exists",
    "C76_sixteen_digits_refuted",
    "C76_nonfinite_refuted"
   ],
   "note": "Flocq binary64. What %.Pg prints is modelled from the C standard with exact decimal rounding to nearest even; the conversion back is any function that returns the nearest double (one is constructed: C76_reader_exists)."
  },
  {
   "property": "C77",
   "status": "proved",
   "theorems": [
    "C77_eval_repr",
    "C77_eval_repr_same",
    "C77_doubles",
    "C77_debug_form",
    "C77_debug_distinct",
    "C77_not_same_refuted"
   ],
   "note": "py_eval is the specification of what Python does with the text. Expressions outside C37 need not come back as they were (C77_not_same_refuted)."
  },
  {
   "property": "C78",
   "status": "proved",
   "theorems": [
    "C78_column_and_square",
    "C78_safe_iff"
   ],
   "note": "Reading outside of the matrix is undefined behaviour in the model; C78_safe_iff is exact."
  },
  {
   "property": "C79",
   "status": "proved",
   "theorems": [
    "C79_history",
    "C79_overflow",
    "C79_constructors",
    "C79_iteration",
    "C79_equality",
    "C79_text",
    "C79_elementwise",
    "C79_to_expression",
    "C79_size_and_list",
    "C79_row_major",
    "C79_row_major_push",
    "C79_row_major_push_rank",
    "C79_static_chain",
    "C79_unused_places_refuted",
    "C79_uninitialised_refuted",
    "C79_mixed_refuted",
    "C79_refused_resize_refuted",
    "C79_new_row_major",
    "C79_map",
    "C79_row_major_elementwise",
    "C79_row_major_map",
    "C79_row_major_equality",
    "C79_row_major_text"
   ],
   "note": "Slots of std::array that were never written are modelled as uninitialised unless the element type has a default constructor. size_t does not wrap in the model except in the text."
  },
  {
   "property": "C80",
   "status": "partial",
   "theorems": [
    "C80_value",
    "C80_either_sign",
    "C80_substitution_partial",
    "C80_derivative",
    "C80_simplify_partial",
    "C80_constant",
    "C80_doubles",
    "C80_as_number",
    "C80_as_other",
    "C80_variables",
    "C80_index"
   ],
   "note": "Values over exact reals, constants over doubles. Agreement of substitution and simplification is proved away from the compile-time sin/cos table and without integer division (see the refutations of C44, C54); agreement of derivatives wherever the compile-time derivative exists. Expressions with arrays, matrices or polynomials in them are not compile-time trees of the model."
  },
  {
   "property": "C81",
   "status": "proved",
   "theorems": [
    "C81_ratios",
    "C81_doubles",
    "C81_ratios_as_doubles",
    "C81_gas_constant",
    "C81_remainders_refuted"
   ],
   "note": "pi is enclosed by the Machin-like series of the standard library, e by Taylor-Lagrange (Coquelicot). The literals are modelled as reals rounded first to long double, then to double."
  },
  {
   "property": "C82",
   "status": "partial",
   "theorems": [
    "C82_read_back_partial",
    "C82_text_value_partial",
    "C82_plain",
    "C82_constants_differ",
    "C82_forms",
    "C82_read_back_refuted"
   ],
   "note": "The full claim is false: C<-2>^C<2> prints as -2^2, which is read as -(2^2). The condition ct_printable is the one of C37 (ParserSpec), fractions count as names; C82_plain gives a simple sufficient condition. Values over exact reals; numbers in the text are read exactly (doubles: see C76)."
  },
  {
   "property": "C83",
   "status": "proved",
   "theorems": [
    "C83_entries",
    "C83_text_form",
    "C83_text_determines"
   ],
   "note": "Exact reals. The text determines the polynomial when every printed coefficient of the chain is read back by the parser. The order 0 chain has no stream operator (does not compile)."
  },
  {
   "property": "C84",
   "status": "proved",
   "theorems": [
    "C84_sum",
    "C84_difference",
    "C84_exact",
    "C84_quotient",
    "C84_derivative",
    "C84_product",
    "C84_division",
    "C84_laws",
    "C84_associative_refuted",
    "C84_commutative_refuted",
    "C84_division_constant",
    "C84_division_constant_differs",
    "C84_division_leading_zero"
   ],
   "note": "Flocq binary64, round to nearest even, no contraction. Division: divisor of order at least 1 with nonzero leading coefficient; finiteness of q and r is a hypothesis. Finiteness of sums, quotients and derivatives is proved up to 2^1000."
  },
  {
   "property": "C85",
   "status": "proved",
   "theorems": [
    "C85_coefficients",
    "C85_complex_numbers",
    "C85_evaluation",
    "C85_arithmetic",
    "C85_derivative",
    "C85_division",
    "C85_integers",
    "C85_conjugates",
    "C85_conjugate_roots",
    "C85_text"
   ],
   "note": "Exact arithmetic: int without overflow, complex numbers over the exact reals; the text is of doubles. Division needs a divisor of order not above that of the dividend, as the static_assert does."
  },
  {
   "property": "C86",
   "status": "proved",
   "theorems": [
    "C86_eigen",
    "C86_matrices",
    "C86_substitution",
    "C86_sums",
    "C86_product",
    "C86_derivative",
    "C86_path"
   ],
   "note": "Exact real arithmetic; Eigen is modelled by its algebra (3-vectors, 3x3 matrices; the theorems are for any real vector spaces and bilinear products), not its expression templates or storage."
  }
 ]
}