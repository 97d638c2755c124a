{"id": "C01", "title": "Polynomial evaluation is exact Horner evaluation", "statement": "Substituting a finite value v for the variable of a polynomial with coefficients c0..cN yields c0 + c1 v + ... + cN v^N, for any order N including 0, whether the value is a runtime number or a compile-time symbol.", "quantifier": "every order, every coefficient vector, every finite value", "why_tests_cant": "The order is a template parameter and the coefficients are arbitrary; tests instantiate a handful of orders.", "anchors": ["stator/symbolic/polynomial.hpp: sub(const Polynomial&, const Relation<Var,Coeff2>)", "stator/symbolic/polynomial.hpp: detail::PolySubWorker"]}
{"id": "C02", "title": "Polynomial evaluation at plus/minus infinity has the sign of the limit", "statement": "Substituting +inf or -inf returns the infinity the polynomial tends to there (the sign of the highest non-zero power at that end), or the constant term when the polynomial is constant.", "quantifier": "every order, every coefficient vector including ones whose leading coefficients are zero, both infinities", "why_tests_cant": "Sign logic depends on which leading coefficients vanish; sampled tests use polynomials with a non-zero leading coefficient.", "anchors": ["stator/symbolic/polynomial.hpp: sub (std::isinf branch)"]}
{"id": "C03", "title": "eval_derivatives returns the value and all requested derivatives", "statement": "eval_derivatives<D>(f,x) returns [f(x), f'(x), ..., f^(D)(x)], including zeros when D exceeds the order.", "quantifier": "every D, every order, every polynomial, every x", "why_tests_cant": "Nested in-place update loop with factorial rescaling; only a few (D,order) pairs are exercised.", "anchors": ["stator/symbolic/polynomial.hpp: eval_derivatives"]}
{"id": "C04", "title": "Euclidean polynomial division", "statement": "gcd(f,g) (quotient/remainder) returns (q,r) with f = q*g + r as functions, where r has lower degree than the highest non-zero coefficient of g; division by a zero constant polynomial is flagged by an infinite quotient.", "quantifier": "every pair of orders, all coefficients, including divisors with vanishing leading coefficients; the code accepts divisors of smaller order only (static_assert)", "why_tests_cant": "Recursion over vanishing leading coefficients times a division loop over arbitrary coefficients.", "anchors": ["stator/symbolic/polynomial.hpp: gcd", "stator/symbolic/polynomial.hpp: detail::mrem"]}
{"id": "C05", "title": "Polynomial derivative", "statement": "derivative(f, var) of a polynomial in var is the polynomial whose value at every point is the mathematical derivative of f there; with respect to another variable it is zero.", "quantifier": "every order, coefficients and evaluation point", "why_tests_cant": "Requires limits at every real point.", "anchors": ["stator/symbolic/polynomial.hpp: derivative(const Polynomial&, Var)"]}
{"id": "C06", "title": "Taylor shift", "statement": "shift_function(f,t) is a polynomial g of the same order with g(x)=f(x+t) for all x; the specialised unit shift agrees with t=1.", "quantifier": "every order, polynomial, shift t and point x", "why_tests_cant": "In-place triangular loops; algebraic identity over all reals.", "anchors": ["stator/symbolic/polynomial.hpp: shift_function(const Polynomial&, const double)", "stator/symbolic/polynomial.hpp: shift_function(const Polynomial&, const Unity)"]}
{"id": "C07", "title": "Inverting Taylor shift", "statement": "invert_taylor_shift(f) is a polynomial g of the same order d with g(x)=(x+1)^d f(1/(x+1)) for all x != -1.", "quantifier": "every order, polynomial and x != -1", "why_tests_cant": "Algebraic identity over all reals.", "anchors": ["stator/symbolic/polynomial.hpp: invert_taylor_shift"]}
{"id": "C08", "title": "Reflection and scaling", "statement": "reflect_poly(f)(x)=f(-x) and scale_poly(f,a)(x)=f(a x) for all x and a.", "quantifier": "every order, polynomial, factor and point", "why_tests_cant": "Algebraic identity over all reals.", "anchors": ["stator/symbolic/polynomial.hpp: reflect_poly", "stator/symbolic/polynomial.hpp: scale_poly"]}
{"id": "C09", "title": "Deflation removes exactly the given root", "statement": "If r is a root of a then deflate_polynomial(a,r) is b with a(x)=(x-r) b(x) for all x, whatever forward/backward recurrence choice the precision heuristic makes, and never reads or writes outside the coefficient arrays.", "quantifier": "every order >= 1, every polynomial and root, every sequence of heuristic choices", "why_tests_cant": "The interleaving of forward and backward recurrences depends on data; also memory safety at the smallest order.", "anchors": ["stator/symbolic/polynomial.hpp: deflate_polynomial"]}
{"id": "C10", "title": "Polynomial ring operations agree with pointwise arithmetic", "statement": "Sum, difference, product, negation of polynomials, multiplication by a constant or by the variable, division by a constant, and constant+polynomial produce polynomials whose value at every x is the corresponding combination of the operand values.", "quantifier": "every pair of orders, all coefficients, all x", "why_tests_cant": "Different-order operand handling and convolution loops; algebraic identities for all inputs.", "anchors": ["stator/symbolic/simplify.hpp: simplify(AddOp/SubtractOp/MultiplyOp/DivideOp of Polynomial)", "stator/symbolic/polynomial.hpp: Polynomial::operator-"]}
{"id": "C11", "title": "Polynomial construction and order change", "statement": "A polynomial built from k<=N+1 coefficients has exactly those coefficients followed by zeros; more than N+1 coefficients raise std::length_error; change_order keeps the common coefficients, so it preserves the function whenever dropped coefficients are zero.", "quantifier": "every order, every list of coefficients", "why_tests_cant": "Ranges over all list lengths and orders.", "anchors": ["stator/symbolic/polynomial.hpp: Polynomial constructors", "stator/symbolic/polynomial.hpp: change_order"]}
{"id": "C12", "title": "Linear and quadratic real roots are complete, sound and sorted", "statement": "solve_real_roots of a polynomial of order 1 or 2 (not identically zero) returns exactly its real roots, in increasing order, each root listed once.", "quantifier": "all real coefficients, including zero leading coefficients, outside the overflow-avoiding approximation branch", "why_tests_cant": "Branches on discriminant sign, zero coefficients and root cancellation over a continuum of coefficients.", "anchors": ["stator/symbolic/polynomial.hpp: solve_real_roots(PolyWrapper order 1)", "stator/symbolic/polynomial.hpp: solve_real_roots(order 2)"]}
{"id": "C13", "title": "Cubic real roots", "statement": "solve_real_roots of a cubic returns its real roots in increasing order: nothing that is not a root and no real root missing.", "quantifier": "all real coefficients (including zero leading or constant coefficients) outside the overflow-avoiding branches", "why_tests_cant": "A large decision tree (hyperbolic/trigonometric formulas, Halley polishing, deflation) over a continuum.", "anchors": ["stator/symbolic/polynomial.hpp: solve_real_roots(order 3)", "stator/symbolic/polynomial.hpp: deflate_and_solve_polynomial"]}
{"id": "C14", "title": "General real-root solver finds every distinct real root", "statement": "For order >= 4, solve_real_roots returns every real root, in increasing order, and nothing else.", "quantifier": "all polynomials of order >= 4 with simple real roots, roots reported up to the bisection tolerance", "why_tests_cant": "Composition of isolation, reflection, deflation and sorting over all polynomials.", "anchors": ["stator/symbolic/polynomial.hpp: solve_real_roots(order > 3)", "stator/symbolic/polynomial.hpp: solve_real_positive_roots_poly"]}
{"id": "C15", "title": "Sturm chain counts distinct roots", "statement": "sturm_chain(f).roots(a,b) equals the number of distinct real roots of f in the half open interval (a,b] (a<b, f(a), f(b) not multiple-root points).", "quantifier": "every polynomial, every interval", "why_tests_cant": "Sturm's theorem is an analytic statement over all polynomials and reals.", "anchors": ["stator/symbolic/polynomial.hpp: detail::SturmChain", "stator/symbolic/polynomial.hpp: sturm_chain", "stator/symbolic/polynomial.hpp: detail::sturm_detail/sign_change_helper"]}
{"id": "C16", "title": "Descartes' rule of signs", "statement": "descartes_rule_of_signs(f) is an upper bound on the number of strictly positive roots counted with multiplicity and has the same parity, so 0 means no positive root and 1 means exactly one simple positive root.", "quantifier": "every polynomial", "why_tests_cant": "Needs induction over root factorisations.", "anchors": ["stator/symbolic/polynomial.hpp: descartes_rule_of_signs"]}
{"id": "C17", "title": "Budan and Alesina-Galuzzi tests", "statement": "budan_01_test(f) bounds (with equal parity) the number of roots, with multiplicity, in the open interval (0,1), and alesina_galuzzi_test(f,a,b) does so for (a,b): 0 means no root, 1 means exactly one.", "quantifier": "every polynomial, every a<b", "why_tests_cant": "Quantifies over all polynomials and intervals.", "anchors": ["stator/symbolic/polynomial.hpp: budan_01_test", "stator/symbolic/polynomial.hpp: alesina_galuzzi_test"]}
{"id": "C18", "title": "LMQ bounds enclose all positive roots", "statement": "Every positive real root x of f satisfies LMQ_lower_bound(f) < x < LMQ_upper_bound(f) (0 upper bound meaning there are none).", "quantifier": "every polynomial (not identically zero)", "why_tests_cant": "An inequality over all polynomials; the use-count bookkeeping must be globally consistent.", "anchors": ["stator/symbolic/polynomial.hpp: LMQ_upper_bound", "stator/symbolic/polynomial.hpp: LMQ_lower_bound"]}
{"id": "C19", "title": "VCA isolation", "statement": "VCA_real_root_bounds(f) returns, with intervals each containing exactly one root of f, and every positive root of f lies in one of them.", "quantifier": "every square-free polynomial", "why_tests_cant": "Recursive bisection over a continuum; a root exactly on a bisection point is measure zero in random tests.", "anchors": ["stator/symbolic/polynomial.hpp: VCA_real_root_bounds", "stator/symbolic/polynomial.hpp: detail::VCA_real_root_bounds_worker"]}
{"id": "C20", "title": "Moebius transform bookkeeping", "statement": "The transform object, updated along with shift, scale and invert-Taylor-shift operations, maps each root of the transformed polynomial to the corresponding root of the original polynomial, and its evaluation at 0 and infinity gives the interval end points.", "quantifier": "every sequence of the three operations, every polynomial and point", "why_tests_cant": "Holds over arbitrary operation histories.", "anchors": ["stator/symbolic/polynomial.hpp: detail::MobiusTransform"]}
{"id": "C21", "title": "VAS isolation", "statement": "VAS_real_root_bounds(f) returns, every positive root of f lies in exactly one returned interval and every returned interval is finite and holds exactly one root.", "quantifier": "every polynomial with simple positive roots and non-zero constant coefficient, every rounding unit up to 1/(300(2n+1)), every recursion depth; multiple positive roots: never returns", "why_tests_cant": "Continued-fraction recursion of unbounded depth driven by data.", "anchors": ["stator/symbolic/polynomial.hpp: VAS_real_root_bounds", "stator/symbolic/polynomial.hpp: detail::VAS_real_root_bounds_worker"]}
{"id": "C22", "title": "Bisection keeps a bracket", "statement": "bisection on an interval whose end values have opposite signs returns true with x inside the interval, and either f(x)=0 exactly or x adjacent to a sign change of f within the requested relative precision; an invalid interval is rejected with false; it never evaluates outside the interval.", "quantifier": "every function, interval, precision and iteration count", "why_tests_cant": "Loop invariant over an unbounded iteration count and arbitrary functions.", "anchors": ["stator/symbolic/numeric.hpp: bisection"]}
{"id": "C23", "title": "Safeguarded Newton/Halley iterations never leave their bounds", "statement": "newton_raphson and halleys_method only accept iterates inside [low,high]; every accepted step either does not increase |f| or goes to the middle of a bracket with a sign change; on returning true the final x is a root or satisfies the stated convergence condition (a step below the relative precision); the path is the safeguarded Newton (Halley) path: each step goes to the root of the tangent (of the osculating hyperbola) when that is usable and otherwise halves a bracketed sign change, and false is returned only when the limit is used up or no step is possible.", "quantifier": "every function with derivatives, every start, bounds and iteration limit", "why_tests_cant": "Invariant over all iteration histories and arbitrary functions.", "anchors": ["stator/symbolic/numeric.hpp: newton_raphson, halleys_method, schroeder_step, bisection_step, process_iterative_step"]}
{"id": "C24", "title": "StackVector behaves as a bounded sequence", "statement": "Any sequence of push_back/pop_back/extend/back on a StackVector whose size stays within its capacity behaves as the same sequence on a list; in debug builds exceeding the capacity or popping an empty vector throws instead of corrupting memory.", "quantifier": "every operation history", "why_tests_cant": "Histories are unbounded.", "anchors": ["stator/orphan/stack_vector.hpp: StackVector"]}
{"id": "C25", "title": "static_list operations are list operations", "statement": "get, reverse, replace, append, prepend, size, merge, split and foreach on compile-time lists agree with the usual list functions for every list and index.", "quantifier": "every list and index", "why_tests_cant": "Template recursion over arbitrary lengths.", "anchors": ["stator/orphan/static_list.hpp"]}
{"id": "C26", "title": "Array addressing is a bijection", "statement": "Row-major coordinate to linear index conversion is injective, onto the whole storage, in bounds, and inverse to the documented order, for every rank and dimensions; iterators advance in that order.", "quantifier": "every rank, every dimensions vector, every in-range coordinate", "why_tests_cant": "Rank and dimensions are unbounded.", "anchors": ["stator/symbolic/array.hpp: coords_to_index / store_size / ArrayAccessor"]}
{"id": "C27", "title": "Elementwise array arithmetic", "statement": "Elementwise operations between arrays of equal dimensions act coordinate by coordinate and preserve the dimensions; unequal dimensions raise an exception; a scalar operand combines with every element.", "quantifier": "every pair of arrays, every element operation", "why_tests_cant": "Ranges over all ranks, sizes and values.", "anchors": ["stator/symbolic/array.hpp: elementwiseop", "stator/symbolic/runtime.hpp: ArrayRT double dispatch"]}
{"id": "C28", "title": "strip removes exactly the outer blanks", "statement": "strip(s) is the longest substring of s without blanks at its ends; a blank-only string gives the empty string.", "quantifier": "every string", "why_tests_cant": "Every length and blank layout.", "anchors": ["stator/string.hpp: strip"]}
{"id": "C29", "title": "search_replace replaces every non-overlapping occurrence", "statement": "search_replace(in, from, to) rewrites the left-most non-overlapping occurrences of a non-empty pattern and terminates for every replacement, even one containing the pattern.", "quantifier": "every subject, pattern and replacement string", "why_tests_cant": "Overlap and self-containing replacements are unbounded.", "anchors": ["stator/string.hpp: search_replace"]}
{"id": "C30", "title": "Expression equality is a congruence and compatible with hashing", "statement": "Structural equality of runtime expressions is reflexive, symmetric, transitive and respected by hashing: equal expressions have equal hashes.", "quantifier": "every pair of expressions, every dictionary iteration order", "why_tests_cant": "Depends on all expression trees and on unordered-map iteration orders.", "anchors": ["stator/symbolic/runtime.hpp: Expr::operator==, hash", "stator/hash.hpp: hash_combine"]}
{"id": "C31", "title": "Runtime simplify preserves values", "statement": "Wherever an expression has a value under an assignment of its variables, simplify returns an expression with the same value there.", "quantifier": "every expression tree, every assignment", "why_tests_cant": "All trees, all assignments.", "anchors": ["stator/symbolic/runtime.hpp: SimplifyRT, DoubleDispatch2"]}
{"id": "C32", "title": "Runtime simplify is idempotent and folds constants", "statement": "simplify(simplify(e)) equals simplify(e); a variable-free arithmetic expression simplifies to a single number.", "quantifier": "every expression tree", "why_tests_cant": "All trees.", "anchors": ["stator/symbolic/runtime.hpp: SimplifyRT"]}
{"id": "C33", "title": "Substitution is semantic substitution", "statement": "sub(e, x==v) evaluates like e with x assigned the value of v, and other variables untouched; a dictionary substitutes all its variables simultaneously; variables not occurring have no effect.", "quantifier": "every expression, variable, replacement and dictionary", "why_tests_cant": "All trees and dictionaries, including replacements mentioning other substituted variables.", "anchors": ["stator/symbolic/runtime.hpp: SubstituteRT, SubstituteDictRT, sub"]}
{"id": "C34", "title": "Runtime symbolic derivative is the mathematical derivative", "statement": "derivative(e,x) evaluates, at every point where e and the rules' preconditions hold, to the limit of the difference quotient of e in x.", "quantifier": "every expression tree built from constants, variables, + - * / ^, unary minus, sin, cos, exp, ln; every point in the domain of differentiability", "why_tests_cant": "Structural induction with limits.", "anchors": ["stator/symbolic/runtime.hpp: DerivativeRT", "stator/symbolic/binary_ops.hpp: derivative", "stator/symbolic/unary_ops.hpp: derivative"]}
{"id": "C35", "title": "The parser terminates with a result or a reported error on every input", "statement": "Constructing an expression from any byte string ends with an expression or an exception, never reads outside the string, and an accepted string has been consumed completely.", "quantifier": "every byte string", "why_tests_cant": "Every input string; recursion depth unbounded.", "anchors": ["stator/symbolic/parser.hpp: ExprTokenizer, ParseExpr"]}
{"id": "C36", "title": "Operator precedence and associativity", "statement": "For operands a,b,c and binary operators o1,o2, the text a o1 b o2 c is grouped left if o1 binds tighter or equal (left associative), right if o2 binds tighter or equal (right associative: ^), for chains of any length.", "quantifier": "every chain of operators and operands", "why_tests_cant": "Chains are unbounded and all operator pairs interact.", "anchors": ["stator/symbolic/parser.hpp: parseExpression", "stator/symbolic/binary_ops.hpp: LBP/RBP/NBP"]}
{"id": "C37", "title": "Printing then parsing gives back the same expression", "statement": "The string representation of an expression parses back to the same expression.", "quantifier": "every expression tree over variables, non-negative integer constants, + - * / ^ and functions", "why_tests_cant": "All trees; parenthesisation decisions depend on each parent/child operator pair.", "anchors": ["stator/symbolic/runtime.hpp: repr", "stator/symbolic/binary_ops.hpp: repr", "stator/symbolic/parser.hpp"]}
{"id": "C38", "title": "Units arithmetic", "statement": "Simplifying products and quotients of quantities with units multiplies/divides magnitudes and units separately: the value in base units is preserved, including scalar times quantity and quantity times scalar.", "quantifier": "every magnitude and unit expression", "why_tests_cant": "All expressions.", "anchors": ["stator/symbolic/units.hpp: simplify"]}
{"id": "C39", "title": "Automatic differentiation computes Taylor coefficients", "statement": "ad<N>(e, x=a) returns the first N+1 Taylor coefficients of e at a for every expression built from constants, variable, + - * / exp ln sin cos and powers.", "quantifier": "every order N, every expression, every point in the domain", "why_tests_cant": "Recurrences over every order and nested expression.", "anchors": ["stator/symbolic/ad.hpp"]}
{"id": "C40", "title": "Taylor series expansion", "statement": "taylor_series<N>(f,a,x) is a polynomial whose first N derivatives at a agree with those of f, and it reproduces f exactly for polynomials of order <= N.", "quantifier": "every order and expansion point", "why_tests_cant": "Ranges over all orders and points.", "anchors": ["stator/symbolic/taylor.hpp: taylor_series"]}
{"id": "C41", "title": "Exact rational constants and their trigonometric values", "statement": "Arithmetic between compile-time rational constants is exact and in lowest terms with a positive denominator; sine and cosine of rational multiples of pi which simplify do so to the true value.", "quantifier": "all numerators and denominators, all multiples of pi/2", "why_tests_cant": "Ranges over all integers.", "anchors": ["stator/symbolic/constants.hpp: C, sin_Cimpl, cos_Cimpl"]}
{"id": "C42", "title": "Factorials", "statement": "Factorial<n> is n! and InvFactorial<n> its reciprocal for n up to 20; beyond, where n! does not fit the integer type, the program does not compile (never a wrong value).", "quantifier": "every n", "why_tests_cant": "Template recursion over all n.", "anchors": ["stator/symbolic/constants.hpp: Factorial/InvFactorial"]}
{"id": "C43", "title": "Symbolic integration returns an antiderivative", "statement": "Wherever integrate(f,x) is defined its derivative with respect to x is f.", "quantifier": "every expression covered by the rules, every point", "why_tests_cant": "Limit statement over all points and expressions.", "anchors": ["stator/symbolic/integrate.hpp"]}
{"id": "C44", "title": "Compile-time simplification rules preserve values", "statement": "Each compile-time rewrite (identities, zeros, cancellation, power merging, re-association, sign rules) yields an expression with the same value wherever the original has one.", "quantifier": "every operand expression and assignment", "why_tests_cant": "All expressions and assignments.", "anchors": ["stator/symbolic/simplify.hpp"]}
{"id": "C45", "title": "Axis-aligned box measures", "statement": "volume and area of an axis-aligned box are the product of the edge lengths and the sum of its face measures, in every dimension.", "quantifier": "every dimension and corner positions", "why_tests_cant": "Dimension is a template parameter.", "anchors": ["stator/geometry/box.hpp"]}
{"id": "C46", "title": "Ball measures", "statement": "The volume of a D-ball satisfies V_D(r)=V_D(1) r^D with V_D(1)=(2 pi/D) V_{D-2}(1), V_0=1, V_1=2, and its surface area is dV/dr.", "quantifier": "every dimension and radius", "why_tests_cant": "Separate odd/even closed forms for infinitely many dimensions.", "anchors": ["stator/geometry/sphere.hpp"]}
{"id": "C47", "title": "Geometric overlap indicators", "statement": "The indicator between balls (positive radius), points and half-spaces (given with a unit normal) is symmetric in its arguments and negative exactly when the shapes' interiors overlap.", "quantifier": "every dimension, position and size", "why_tests_cant": "Ranges over all configurations.", "anchors": ["stator/geometry/indicator.hpp", "stator/geometry/plane.hpp"]}
{"id": "C48", "title": "XML path names the node", "statement": "The path reported for an XML node contains, at each level, the node's 0-based index among same-named siblings, so that two different nodes have different paths.", "quantifier": "every XML tree and node", "why_tests_cant": "All trees.", "anchors": ["stator/xml.hpp: Node::getPath"]}
{"id": "C49", "title": "Python reflected operators keep operand order", "statement": "In the Python binding, evaluating number OP expression gives the expression number OP expression for + - * / in that order.", "quantifier": "every number and expression", "why_tests_cant": "All operand pairs.", "anchors": ["pysrc/stator/core.cpp"]}
{"id": "C50", "title": "Equations and dictionaries as substitution arguments", "statement": "sub(e, arg) accepts exactly an equality whose left side is a variable, or a dictionary; anything else raises an exception and never silently returns e.", "quantifier": "every expression argument", "why_tests_cant": "All argument trees.", "anchors": ["stator/symbolic/runtime.hpp: sub(const Expr&, const Expr&)"]}
{"id": "C51", "title": "Template configuration look-up returns the first match", "statement": "get_value/get_type/is_present on a parameter pack return the first entry with the requested tag, and absence is reported exactly when no entry has it.", "quantifier": "every parameter list and tag", "why_tests_cant": "Parameter packs of every length.", "anchors": ["stator/orphan/template_config.hpp"]}
{"id": "C52", "title": "Numeric cancellation estimates", "statement": "subtraction_precision reports the binary exponent gap of two operands of equal sign and the maximal value otherwise; addition_precision(a,b)=subtraction_precision(a,-b).", "quantifier": "every pair of numbers", "why_tests_cant": "All pairs of reals.", "anchors": ["stator/symbolic/precision.hpp"]}
{"id": "C53", "title": "Runtime simplify terminates", "statement": "simplify returns an expression or raises an exception for every expression; it never recurses for ever.", "quantifier": "every expression tree, arrays nested to any depth included", "why_tests_cant": "All trees; termination is a property of every execution.", "anchors": ["stator/symbolic/runtime.hpp: SimplifyRT, simplify"]}
{"id": "C54", "title": "Compile-time substitution", "statement": "sub(f, x = g) on compile-time expressions has the values of f with x assigned the values of g.", "quantifier": "every expression, replacement and assignment", "why_tests_cant": "All trees and assignments.", "anchors": ["stator/symbolic/sub.hpp: sub", "stator/symbolic/binary_ops.hpp: sub", "stator/symbolic/unary_ops.hpp: sub"]}
{"id": "C55", "title": "Compile-time derivative", "statement": "Where derivative(f, x) compiles, its value is the limit of the difference quotient of f in x at every point where f is differentiable.", "quantifier": "every compile-time expression and point", "why_tests_cant": "Structural induction with limits.", "anchors": ["stator/symbolic/variable.hpp: derivative", "stator/symbolic/binary_ops.hpp: derivative", "stator/symbolic/unary_ops.hpp: derivative"]}
{"id": "C56", "title": "Evaluation from Python", "statement": "In Python, sub(f, {variables: numbers}) with a number for every variable returns the float that is the value of f, and sub(derivative(f, x), {...}) the float that is the derivative of f with respect to x.", "quantifier": "every scalar expression, assignment and point of differentiability", "why_tests_cant": "All expressions and points.", "anchors": ["pysrc/stator/core.cpp: to_python, sub, derivative", "stator/symbolic/runtime.hpp: SimplifyRT"]}
{"id": "C57", "title": "Exception messages", "statement": "what() of an exception shows where it was thrown followed by everything streamed into it, in order; copying (which throwing does) keeps the text, and streaming more into a caught exception appends to it.", "quantifier": "every location, sequence of streamed texts and number of copies", "why_tests_cant": "All histories of streaming and copying.", "anchors": ["stator/exception.hpp: Exception, stator_throw"]}
{"id": "C58", "title": "Navigating an XML document", "statement": "findNode/getNode/hasNode find the first child of a name, the loop with ++ visits exactly the children of that name in document order, -- undoes ++, getParent returns to the node searched, add_node appends one empty element and changes nothing else, missing nodes are reported, and no call follows a bad pointer.", "quantifier": "every document and every history of calls on handles to its nodes", "why_tests_cant": "All histories of calls over documents of any size.", "anchors": ["stator/xml.hpp: Node, Document"]}
{"id": "C59", "title": "XML attributes and values", "statement": "An attribute or value that was written is read back and nothing else changes, += appends to the value, an enumeration written through a map is read back as an equal value, and missing attributes are reported.", "quantifier": "every document, history of calls, text and map", "why_tests_cant": "All histories of calls; all maps.", "anchors": ["stator/xml.hpp: Node::add_attribute, getAttribute, operator=, operator+=", "stator/xml.hpp: Attribute::getValue, match"]}
{"id": "C60", "title": "Position of XML parse errors", "statement": "A parse error is reported with the number of its line, its column in that line, an excerpt of the line and a caret under the error.", "quantifier": "every document text and error position", "why_tests_cant": "All texts and positions.", "anchors": ["stator/xml.hpp: Document::parseData"]}
{"id": "C61", "title": "Lin-Bairstow quadratic factors", "statement": "LinBairstowSolve(f, tol, guess) returns x^2+Bx+C obtained by a Newton step, no longer than tol, for the equations saying that x^2+Bx+C divides f; with tolerance 0 the result divides f; a simple quadratic factor given as guess is returned unchanged; polynomials of order at most 2 are returned unchanged.", "quantifier": "every polynomial of every order, monic guess and tolerance", "why_tests_cant": "All polynomials, guesses and numbers of iterations.", "anchors": ["stator/symbolic/polynomial.hpp: LinBairstowSolve"]}
{"id": "C62", "title": "Error estimate of polynomial evaluation", "statement": "precision(f, x) is an upper bound for the rounding error |computed f(x) - exact f(x)| of evaluating f at x in floating point.", "quantifier": "every polynomial (order below 2^47 for doubles), every finite x, every correctly rounding arithmetic without overflow and underflow", "why_tests_cant": "All roundings of all operations for all coefficients.", "anchors": ["stator/symbolic/polynomial.hpp: precision(Polynomial, x)", "stator/symbolic/polynomial.hpp: sub (Horner evaluation)"]}
{"id": "C63", "title": "expand collects polynomials", "statement": "expand(e) of a polynomial expression in one variable (variable, polynomials, numbers, constants, + - *, whole powers, division by a constant) compiles in finitely many steps and gives one Polynomial with the value of e at every point; the exceptions are the bare products of powers of x, which become a power, constants, which become numbers, and divisions that C++ would do between ints. expand, simplify and N on any expression that contains polynomials (functions and several variables included) keep its value where products are of one variable.", "quantifier": "every compile-time expression of every depth, every power, all values of the variables", "why_tests_cant": "All trees, and an unbounded recursion of overload resolution.", "anchors": ["stator/symbolic/simplify.hpp: expand, try_expand, simplify (Polynomial overloads, toArithmetic, simplify_BinaryOp, simplify_powerop_impl)", "stator/symbolic/polynomial.hpp: operator- (Polynomial)"]}
{"id": "C64", "title": "Printed polynomials", "statement": "repr(f) is P(...) around the non-zero terms c*x^i in decreasing degree, joined by \" + \" (the zero polynomial prints its constant coefficient). The text inside the parentheses, given to the library's own parser, yields an expression whose value is f(x) for every x; two polynomials print the same text exactly when they have the same coefficients up to leading zeros. (The whole text with its P(...) is refused by the parser.)", "quantifier": "every polynomial of every order whose coefficients print as numbers that are read back, every variable name, every x", "why_tests_cant": "All orders and coefficients; agreement of two programs (printer, parser).", "anchors": ["stator/symbolic/polynomial.hpp: repr(Polynomial)", "stator/symbolic/parser.hpp"]}
{"id": "C65", "title": "LaTeX output", "statement": "Expr.latex() gives a formula TeX accepts: braces and \\left/\\right match, every command exists and no atom gets two superscripts; numbers in exponent notation become a power of ten.", "quantifier": "every expression of every size and shape, with and without forced parentheses", "why_tests_cant": "All expression trees.", "anchors": ["stator/symbolic/unary_ops.hpp: repr, l_latex_repr, r_latex_repr", "stator/symbolic/binary_ops.hpp: repr, latex_repr, paren_wrap", "stator/symbolic/array.hpp: repr", "stator/symbolic/dict.hpp: repr", "stator/repr.hpp: repr(Float)", "pysrc/stator/core.cpp: latex"]}
{"id": "C66", "title": "Verdict of the test harness", "statement": "A test program built with unit_test.hpp exits with status 0 exactly when every registered test ran to its end and every check in it held; a failed check does not stop the test, a std::exception stops the run with status 1, any other exception terminates the program. UNIT_TEST_CHECK_CLOSE and UNIT_TEST_CHECK_SMALL never hold for NaN or infinities and otherwise mean the relative and absolute bounds they say.", "quantifier": "every list of tests, every sequence of checks (fewer than 2^64 failures), every pair of values and finite tolerance", "why_tests_cant": "All suites and all values including NaN and infinities; a suite cannot test its own harness.", "anchors": ["stator/unit_test.hpp: UnitTests::run_tests, check_close, check_small, main"]}
{"id": "C67", "title": "Bisection in doubles", "statement": "bisection(f, x, low, high) on doubles, for any f whose computed values at the two finite ends have different signs: it returns true after at most 5057 evaluations (or false exactly when a smaller iteration limit was given and ran out), evaluates f only at doubles within [low, high], and x is a point where the computed f is zero, or one of two neighbouring doubles with a sign change between them, or meets the requested precision. Bounds that are infinite, not increasing or without a sign change are refused.", "quantifier": "every function on doubles (no continuity assumed), every pair of finite bounds, every requested precision, rounding, infinities and NaNs included", "why_tests_cant": "2^128 pairs of bounds and arbitrary functions; termination depends on rounding of the midpoint.", "anchors": ["stator/symbolic/numeric.hpp: bisection"]}
{"id": "C68", "title": "Newton and Halley iteration in doubles", "statement": "newton_raphson and halleys_method on doubles: when they return true, x is a double within the bounds given, the last evaluation was at x, and f is zero there, or x meets the precision relative to an earlier point, or x is next to a sign change; where the derivatives vanish a bracketed sign change is still found by bisection; they end after a moderate number of passes whatever overflows or NaNs occur.", "quantifier": "every function on doubles, every start and every bounds, every iteration limit", "why_tests_cant": "All functions, all doubles, infinities and NaNs.", "anchors": ["stator/symbolic/numeric.hpp: newton_raphson, halleys_method, process_iterative_step, bisection_step", "stator/symbolic/polynomial.hpp: solve_real_roots (cubic)"]}
{"id": "C69", "title": "Linear and quadratic solver in doubles", "statement": "solve_real_roots of a quadratic with double coefficients returns, sorted, all real roots of a polynomial whose coefficients differ from the given ones by a relative 2^-50, each root to a relative 2^-49; when the roots have opposite signs, or the discriminant is at least half of b^2, these are the two roots of the given polynomial to a relative 2^-49, and when the discriminant is clearly negative none. Linear polynomials, and quadratics without constant term, are solved with one correctly rounded division.", "quantifier": "all double coefficients, every rounding of every operation", "why_tests_cant": "2^192 coefficient triples; only a rounding analysis covers them.", "anchors": ["stator/symbolic/polynomial.hpp: solve_real_roots (order 1, order 2)"]}
{"id": "C70", "title": "Simplification of runtime expressions with doubles", "statement": "simplify(e), where the numbers are doubles, keeps the double computed for e at every value of the variables (up to the sign of a zero), and turns an expression without variables into the double computed operation by operation.", "quantifier": "every expression of numbers, variables, functions and + - * / ^, every double value of the variables", "why_tests_cant": "All expression trees and all doubles; the rewriting rules are identities of real numbers and need not be of rounded ones.", "anchors": ["stator/symbolic/runtime.hpp: detail::SimplifyRT, simplify", "stator/symbolic/constants_rt.hpp: ConstantRT"]}
{"id": "C71", "title": "The general root solver in double precision", "statement": "For a polynomial of order four or more with double coefficients whose computed positive-root bounds are ordinary numbers, the default search for positive real roots returns after a bounded number of passes, never overruns its fixed-size containers, and reports at most as many values as the order, each inside the bounds and obtained from an interval of doubles across which the computed sign, or the computed number of Sturm sign changes, differs; the complete result is these values and the opposites of those of f(-x) in non-decreasing order. (It is not true that every real root is reported, that only real roots are reported, or that the search always ends.)", "quantifier": "every polynomial with double coefficients, every order, every implementation of pow", "why_tests_cant": "All coefficient vectors of doubles; rounding in the Sturm chain and in the bounds makes roots appear, vanish, or the loop run for ever only for special inputs.", "anchors": ["stator/symbolic/polynomial.hpp: solve_real_roots, solve_real_positive_roots_poly_sturm, SturmChain, LMQ_upper_bound, LMQ_lower_bound"]}
{"id": "C72", "title": "Single iteration steps apply their method", "statement": "A Newton step that is not refused finds the root of a linear function at once and near a simple root has an error at most proportional to the square of the previous one; a Halley step finds the root of a homographic function at once and has an error at most proportional to the cube of the previous one. (A Schroeder step does not: it can leave the distance to the root unchanged even on a linear function.)", "quantifier": "every function with the derivatives it returns, every start, bounds, precision", "why_tests_cant": "All smooth functions and all starting points; a wrong formula still decreases |f| on most test functions because of the safeguards.", "anchors": ["stator/symbolic/numeric.hpp: newton_raphson_step, halley_step, schroeder_step, detail::process_iterative_step"]}
{"id": "C73", "title": "Root bounds computed in doubles", "statement": "The lower and upper bound the root solver computes for the positive roots of a polynomial with double coefficients (at most 31 of them, each zero or of magnitude between 2^-300 and 2^300) enclose every positive real root of that polynomial strictly, whatever the rounding of each operation and although pow is only accurate to some units in the last place; the upper bound is finite, the lower bound positive, and infinite only if there is no positive root.", "quantifier": "every such polynomial, every accurate pow", "why_tests_cant": "All coefficient vectors of doubles; a bound rounded to the wrong side cuts off a root only for special coefficients.", "anchors": ["stator/symbolic/polynomial.hpp: LMQ_upper_bound, LMQ_lower_bound, solve_real_positive_roots_poly_sturm"]}
{"id": "C74", "title": "Interval substitution encloses the range", "statement": "Substituting an interval for a variable: every value the expression takes at a point of the interval is contained in the result. For an expression of doubles, that variable, + - * /, unary minus and absolute value the result is itself an interval (for an interval library with the inclusion property, failing only where that library fails); with exact constants in it the result stays symbolic but still encloses. The result is an enclosure, not always the exact range.", "quantifier": "every compile-time expression, every interval, every interval library with the inclusion property, also several variables one after the other", "why_tests_cant": "All expression trees and all points of all intervals; a dropped operand or a swapped one shows only at points that are not tested.", "anchors": ["stator/symbolic/interval.hpp", "stator/symbolic/sub.hpp: sub", "stator/symbolic/binary_ops.hpp: sub, Add::apply, Multiply::apply", "stator/symbolic/unary_ops.hpp: sub"]}
{"id": "C75", "title": "The cubic solver in double precision", "statement": "solve_real_roots of a cubic with four double coefficients (NaN and infinities included) and non-zero leading coefficient returns one, two or three values, in ascending order unless a NaN is among them; 0 is among them if the constant coefficient is 0; a zero leading coefficient gives the values of the quadratic; a x^3 + c gives the one value cbrt(-c/a). The quadratic solver likewise gives at most two values in ascending order. None of this depends on what the C library computes.", "quantifier": "every four doubles, every implementation of cbrt, cos and acos, every outcome of the choice inside the deflation", "why_tests_cant": "2^256 coefficient vectors, with a dozen branches chosen by rounded quantities.", "anchors": ["stator/symbolic/polynomial.hpp: solve_real_roots (order 3), deflate_and_solve_polynomial, deflate_polynomial"]}
{"id": "C76", "title": "The text of a double gives the double back", "statement": "repr of a finite double is an unsigned decimal number, preceded by a minus sign exactly when the sign bit is set; its value is within half a unit of the last requested digit of the double; with the default 17 digits a conversion that returns the nearest double gives back the same double bit for bit, so different doubles have different texts, and an expression of finite doubles, names, functions and operators is read back with every constant unchanged whenever its shape is read back (C37). Whole numbers of at most 17 digits are printed in plain decimal notation. (Not with 16 digits, and infinities and NaN are read back as variables.)", "quantifier": "every double, every number of digits, every expression tree", "why_tests_cant": "2^64 doubles; a lost digit, a wrong exponent sign or a wrong rounding shows only for particular values.", "anchors": ["stator/repr.hpp: repr(Float), Rounding_digits", "stator/string.hpp: string_format", "stator/symbolic/parser.hpp: parseToken", "stator/symbolic/runtime.hpp: repr"]}
{"id": "C77", "title": "Expr texts in Python", "statement": "For an expression whose text is read back (C37), repr(e) in Python is source text of the form Expr('...') without quotes, backslashes or line ends inside, so that eval(repr(e)) succeeds and gives the simplification of e, which is e itself if nothing is left to simplify; this includes expressions with arbitrary finite double constants. str(e) is the text between the quotes, and debug_form(e) is the same text with every variable x written as Var<\"x\">(): different printable expressions have different debug forms.", "quantifier": "every printable expression, also with arrays and dictionaries; every finite double constant", "why_tests_cant": "All expression trees, names and constants; a name or an operator whose text ends the literal shows only for that operator.", "anchors": ["pysrc/stator/core.cpp: Expr.__repr__, __str__, debug_form", "stator/symbolic/variable.hpp: repr", "stator/symbolic/runtime.hpp: repr"]}
{"id": "C78", "title": "Printing matrices", "statement": "repr of an Eigen matrix of one column lists its coefficients, repr of a square matrix lists its rows in order, and both read each coefficient exactly where it is; a matrix is printed without reading outside of it exactly when it has one column, is square, or is empty. (It is not true of row vectors and of other non-square matrices: rows and columns are exchanged in the loops.)", "quantifier": "every number of rows and columns, every content", "why_tests_cant": "All shapes; the square matrices of the tests do not show exchanged bounds.", "anchors": ["stator/symbolic/runtime.hpp: repr (Eigen)"]}
{"id": "C79", "title": "Arrays of fixed capacity and linear arrays", "statement": "A linear array under any sequence of push_back, assignments and resizes has the size and elements a sequence of that history has; with fixed capacity an operation that does not fit throws and changes nothing; a row-major array of fixed capacity gives every coordinate of its box its own place. Printing lists the visited elements between brackets, conversion to an expression takes exactly the elements, elementwise operations need equal sizes. (Not true, and refuted: iteration, printing and comparison of a fixed array that is not full stay within its elements; a refused resize of a row-major array has no effect; a fixed array can be combined with a growing one of the same size.)", "quantifier": "every history of operations, every capacity, every element type, with or without default values", "why_tests_cant": "All histories; unused places are visited only when an array is not full, and a refused resize is noticed only by a later access.", "anchors": ["stator/symbolic/array.hpp: Addressing<T, LinearAddressing>, Addressing<T, RowMajorAddressing>, repr, elementwiseopLR, ArrayAccessor", "stator/symbolic/runtime.hpp: Expr::Expr(const Array&)"]}
{"id": "C80", "title": "Compile-time expressions become run-time expressions", "statement": "Expr(e) of a compile-time expression has the same value as e for all values of the variables, and a value only where e has one; every exact constant C<n,d> becomes a finite double within 2^-51 of n/d relatively, correctly rounded if n and d are at most 2^53. The two engines agree: substituting, differentiating or simplifying at compile time and converting gives the value that converting first and doing it at run time gives. as<double>() returns the number of a number and throws otherwise.", "quantifier": "every compile-time expression, every assignment of values to variables, every constant", "why_tests_cant": "All expression trees and all points; the two engines have separate rule tables and only agree if both are right.", "anchors": ["stator/symbolic/runtime.hpp: Expr::Expr, Expr::as, Expr::operator[]", "stator/symbolic/variable_rt.hpp", "stator/symbolic/constants.hpp: C::operator double"]}
{"id": "C81", "title": "The constants pi, e and R", "statement": "constant<double>::pi() and e() are the doubles nearest to pi and e on every platform's long double; the fractions constant_ratio::pi and ::e are within 1.61e-14 below pi and 6.17e-16 above e; the gas constant R() is the product of the Avogadro and Boltzmann constants to 2^-51 and within the uncertainty of the CODATA value. (The remainders written in the source for the two fractions are not right.)", "quantifier": "every finite double as competitor, every long double precision of 53, 64 or 113 bits", "why_tests_cant": "A statement about all doubles and about the transcendental numbers pi and e; a comparison with another floating-point literal checks one approximation against another.", "anchors": ["stator/constants.hpp: constant, constant_ratio"]}
{"id": "C82", "title": "Compile-time expressions as text", "statement": "The printed text of a compile-time expression (constants as n or (n/d), variables, functions, operators) is read by the run-time parser as an expression with the same value wherever the original has one, as long as no negative whole number and no power stands unparenthesised as the left operand of a tighter operator. Different constants have different texts, in the normal form, in the debug form and on a stream.", "quantifier": "all compile-time expressions, all constants, both parenthesis options, all values of the variables", "why_tests_cant": "Every combination of operators, signs and fractions is a different text; a test looks at a few of them.", "anchors": ["stator/symbolic/constants.hpp: repr, operator<<, BP", "stator/symbolic/binary_ops.hpp: repr", "stator/symbolic/unary_ops.hpp: repr", "stator/symbolic/variable.hpp: repr", "stator/symbolic/parser.hpp: ExprTokenizer"]}
{"id": "C83", "title": "Sturm chains entry by entry, and as text", "statement": "sturm_chain(f).get(0) is f, get(1) its derivative, and every later entry is minus the remainder of dividing the two before; each entry has one coefficient fewer and beyond the last one get returns zero. Printed, the chain is one numbered line per polynomial, and the text determines the polynomial it was made from.", "quantifier": "all polynomials of order at least one with real coefficients, all indices", "why_tests_cant": "Remainders with vanishing leading coefficients come up only for particular polynomials of each order.", "anchors": ["stator/symbolic/polynomial.hpp: SturmChain, sturm_chain, mrem, output_helper, operator<<"]}
{"id": "C84", "title": "Polynomial arithmetic in doubles", "statement": "For polynomials with double coefficients every coefficient of a sum, a difference, a derivative and a quotient by a number is the exact one rounded once; changing signs, reflecting and multiplying by x are exact. A coefficient of a product differs from the exact one by at most (1+u)^n - 1 times the sum of the sizes of its terms (u = 2^-53, n the smaller number of coefficients), apart from underflow, and nothing overflows while these sums are below 2^998. Division with remainder gives q and r with f = q g + r up to such an error in every coefficient. Division by a constant polynomial multiplies by the rounded reciprocal (so it can differ from the quotient by the number), zero leading coefficients of the divisor are dropped, and a zero constant gives an infinite quotient. Addition commutes and signs go through products. (Not true, and refuted: addition is associative, products commute.)", "quantifier": "all polynomials with finite double coefficients, all coefficients", "why_tests_cant": "Rounding errors depend on every coefficient; tests compare with tolerances on small integers, where nothing is rounded.", "anchors": ["stator/symbolic/polynomial.hpp: operator-, derivative, gcd, reflect_poly", "stator/symbolic/simplify.hpp: operator+, operator-, operator*, operator/"]}
{"id": "C85", "title": "Polynomials with integer or complex coefficients", "statement": "Polynomials may have coefficients of any type that is a commutative ring under its operators, in particular int (without overflow) and std::complex. Then substitution gives the sum of the coefficients times the powers of the value, sums, differences, products, negatives and multiples by x have the corresponding values, the derivative is the formal one and obeys the product rule, and where one can divide (real, complex) division with remainder gives f = q g + r with r of lower degree than g. Polynomials with real coefficients take conjugate values at conjugate points, and (x-a)(x-z)(x-conj z) has real coefficients, the expected ones. A complex number is printed as a real number when its imaginary part is zero, otherwise as (re + imi) or (re - imi), right to six digits.", "quantifier": "all commutative rings (fields for division), all polynomials, all values; all finite complex numbers of doubles for the text", "why_tests_cant": "Tests use double coefficients nearly everywhere; the one test with complex coefficients reads off real parts without looking at the imaginary ones.", "anchors": ["stator/symbolic/polynomial.hpp: sub, PolySubWorker, derivative, gcd", "stator/symbolic/simplify.hpp: operator+, operator-, operator*", "stator/symbolic/constants.hpp: operator<<(std::complex)", "stator/symbolic/empty_sum.hpp"]}
{"id": "C86", "title": "Polynomials with vector and matrix coefficients", "statement": "The coefficients of a polynomial may be Eigen vectors or matrices. Substituting a number gives the sum of powers times coefficients, so each component is the polynomial of the components; sums, differences, negatives, multiples by x and quotients by a number have the corresponding values. The product of two polynomials takes at every number the product of the values, in that order, for every product that is linear on both sides (number times vector, matrix times vector, matrix times matrix). The derivative is the velocity of the path.", "quantifier": "all vector spaces over the reals and bilinear products between them, all polynomials, all numbers; 3-vectors and 3x3 matrices in particular", "why_tests_cant": "Tests add two such polynomials of order at most one; the products, which mix types and do not commute for matrices, are not exercised.", "anchors": ["stator/symbolic/polynomial.hpp: PolySubWorker, sub, derivative", "stator/symbolic/simplify.hpp: operator+, operator-, operator*, operator/", "stator/symbolic/empty_sum.hpp"]}
