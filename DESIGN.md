# Formal model of stator in Rocq (Coq 8.16.1)

This file says what is modelled, how each property of `properties.jsonl` is
proved, and what has to be trusted.

## 1. Style of the model

* Each C++ function becomes a small total Gallina function; the comment above
  it cites file and lines in /repo.  In-place loops are written as loops over
  an immutable list (`for_up`/`for_down` in `Num.v`), so the order of updates
  is the order of the code.
* A C++ exception, undefined behaviour (out-of-bounds access, shift overflow)
  and "still running" (fuel exhausted) are three *different* constructors of
  the outcome type (`Outcome.v`); a theorem never identifies them with a value.
* Compile-time template recursion (orders, static lists, `C<num,den>`)
  becomes ordinary recursion over lists/naturals/integers.
* Numbers.  The numeric code is written once over a record of operations
  (`Num K`), and instantiated with the reals `R` (theorems) and with the
  rationals `Q` (execution, counterexamples by `vm_compute`).  Double rounding
  is idealised: `+ - * /` are exact.  Infinities, where the code tests for
  them, are separate constructors.  NaN is not modelled unless a property says
  so.  Where a heuristic depends on rounding (`precision`,
  `addition_precision`, `frexp`) its result is an arbitrary oracle, so the
  theorem holds whatever the rounding made the code choose.

## 2. Property by property

| id | model | method |
|----|-------|--------|
| C01 | Horner loop of `sub` and PolySubWorker | induction on coefficients, equality with the power sum |
| C02 | `sub` with `isinf` branch | full claim refuted (parity taken from the template order); proved for f[Order]!=0 against the limit definition |
| C03 | `eval_derivatives` triangular loop | loop invariant; equality with n-fold formal derivative |
| C04 | `gcd` division loop and recursion | loop invariant f = q g + r |
| C05 | coefficient-wise derivative | `derivable_pt_lim` by induction |
| C06-C08 | shift, unit shift, inverting shift, reflect, scale | loop invariants (triangular loops), polynomial identities |
| C09 | `deflate_polynomial` with heuristic oracle and `size_t` wrap | invariant on the two filled ends; UB refutation at order 1 |
| C10, C11 | simplify of polynomial sums/products, constructors | pointwise identities by induction |
| C12 | order 1, 2 solvers | case analysis, field/nra |
| C13 | cubic: decision tree, deflation and sorting; closed-form candidates as given by the code | soundness/completeness of deflate-and-solve given an exact candidate root; partial |
| C14 | order >= 4 solver, bisection included | refuted for f(0)=0 and for multiple roots with a root at a halving point (PropSolver.v); proved complete otherwise for the default mode; VAS mode whenever it returns; VCA mode when no root is a dyadic fraction of the computed bound (PropVca.v), order up to 30 |
| C15 | Sturm chain via mrem | Sturm's theorem over R, local constancy of sign changes |
| C16 | sign-change loop | induction: multiplying by (x-r), r>0, adds an odd number of changes |
| C17 | budan, alesina_galuzzi | C16 with C07/C06/C08 |
| C18 | LMQ loops with use counts | weighted-sum inequality |
| C19 | VCA worker with fuel | termination: on short intervals with simple roots the sign variations are at most 1 (Vincent.v, IsolateTerm.v), and multiplying by a factor whose root is outside the cell adds no sign change, which gives the exact condition (VcaExact.v); refuted (root on a bisection point is lost, multiple roots recurse for ever); soundness of each interval proved |
| C20 | MobiusTransform | invariant over arbitrary op sequences |
| C21 | VAS worker with fuel | induction on fuel with C16, C18, C20; termination (VasTerm.v): bounded number of doublings per cell, the determinant of the cell shrinks relative to its denominators, far cells have no sign change; non-termination on multiple roots |
| C22, C23 | numeric.hpp steps and loops, arbitrary function | loop invariants |
| C24, C25, C51 | StackVector, static_list, template_config | refinement to lists |
| C26, C27 | array.hpp addressing, elementwise | mixed-radix induction |
| C28, C29 | string.hpp | induction on strings, independent specification of replacement |
| C30-C34, C50 | runtime Expr AST: ==, hash, simplify, sub, derivative | structural induction, partial real semantics `eval : env -> expr -> option R` |
| C53 | the same visitor with explicit re-simplification depth | weight argument; refuted for array^array |
| C35-C37 | tokenizer, Pratt parser, repr | fuel adequacy, grammar, round trip |
| C38 | units simplify | refuted for scalar*quantity; proved for the other rules, uncertainties and arrays included; array*quantity refuted |
| C39 | ad.hpp recurrences over `expr` | power-series algebra, iterated derivatives; refuted for x^2 at 0 and for nodes without overload |
| C40 | compile-time expressions (`CtModel.v`), taylor_series worker | n-th derivative by induction on C55; exactness through the polynomial shift |
| C41, C42 | constants.hpp | std::ratio arithmetic over Z; refutations for sin(3pi/2), cos(pi) |
| C43, C44, C54, C55 | compile-time operators, sub, derivative, simplify (all `choice<>` levels), N, integrate | one value relation `cval` (the either-sign function has two values); every rule keeps values; limits for derivatives |
| C45-C47 | geometry | induction on the dimension |
| C48 | xml getPath | list model; index claim refuted |
| C57 | exception.hpp: ostringstream as buffer and put position | induction on the streamed texts |
| C58, C59 | xml.hpp Node/Attribute/Document over rapidxml's documented tree; every history of calls | invariant (parent/children agree) over an inductive history relation |
| C60 | parseData's error report | loop invariants of the three pointer loops |
| C61 | LinBairstowSolve over an arbitrary number type | uniqueness of the remainder by a monic quadratic; derivative of the remainder by B and C from the second division |
| C62 | the evaluation of C01 and `precision` over an arithmetic that rounds every operation | induction over Horner's rule; Flocq supplies the rounding to nearest; PropFloatPrec.v does both the value and the estimate in binary64 |
| C63 | expand/simplify/N on trees with polynomials (`ExpandModel.v`), template recursion by fuel | every overload keeps values (induction on fuel); termination by induction on polynomial expressions |
| C64 | repr(Polynomial) (`PrintModel.v`) | loop invariant: the text so far is the layout of a well grouped sum whose value is the sum of the terms written; then completeness of the parser (C36) |
| C65 | repr with Latex_output (`LatexModel.v`), TeX's lexer and a grammar of formulas (`LatexSpec.v`) | induction on the expression; refutations by determinism of the grammar and brace counting; the exact condition with a token machine (`LatexExact.v`) |
| C66 | run_tests, main, check_close, check_small (`UnitTestModel.v`); reals extended by infinities and NaN, no rounding | induction on the list of tests; case analysis |
| C67 | `bisection` over Flocq's binary64 (`FloatModel.v`), the points where f is evaluated are recorded | the rounded midpoint stays between the ends and is within a quarter of the width of the true one, so each pass leaves at most 3/4 of the width (bound of 5057 evaluations); refutation by computation |
| C68 | `newton_raphson`, `halleys_method` and the cubic solver over binary64 with a count of the passes; cbrt, cos, acos are parameters | invariant over the loop; NaN propagation for the refutations |
| C69 | the linear and quadratic solvers over binary64 | rounding error analysis (relative errors of each operation composed); perturbed coefficients from the rounded discriminant |
| C70 | the runtime simplifier of `ExprModel.v` at the number type binary64, libm as a parameter | congruence of rounded operations for equal values; induction over the expression; refutations by computation |
| C71 | the general solver (Sturm mode) over binary64, pow a parameter (`FloatSolver.v`) | each pass halves an interval of doubles (width shrinks by 15/16 or the interval is dropped), a load argument bounds stack and result; refutations by computation in the kernel |
| C72 | the step functions of `NumericModel.v` | Taylor formulas with Lagrange remainder (mean value theorem of the standard library); Schroeder's step refuted on linear functions |
| C73 | `d_LMQ_upper`, `d_LMQ_lower` of `FloatSolver.v`, pow a parameter with relative error 2^-45 | the budget proof of C18 redone with a loss factor per use of a coefficient (each coefficient gives away at most 1 - 2^-30 of itself, which leaves room for all the rounding); Rpower for the perturbed base and exponent |
| C74 | substitution into compile-time trees with interval leaves (`IntervalModel.v`), the interval library a parameter | the value semantics of C54 extended by "an interval stands for any of its points", induction over the tree; exact intervals of reals as an instance |
| C75 | `d_solve_cubic`, `d_solve_quadratic` of `FloatModel.v` | doubles without NaN ordered by an extended value; sorting keeps the values; case analysis over all branches |
| C76 | `FloatTextModel.v`: `show_double` (%.Pg), `FloatTextSpec.v`: value of a decimal number | error of rounding to P digits; half a unit of the 17th digit is less than half the gap between doubles; C37 for expressions |
| C77 | `PyTextModel.v`: `py_repr`, `debug_repr`; C37 for the text | characters of printed texts by induction over the printer; a scanner that removes the decoration |
| C78 | `PyTextModel.v`: `matrix_repr` | induction over the loops |
| C79 | `FixArrayModel.v`: linear and fixed-capacity arrays | invariant relating the storage to a specification of the contents, over all histories |
| C80 | `ConvModel.v`: constructors of `Expr` from compile-time trees | induction over trees; composition with C31, C33, C34, C44, C54, C55; rounding error analysis |
| C81 | `ConstFloatModel.v` | rational enclosures of pi and e, uniqueness of rounding |
| C82 | `CtTextModel.v` | the text of a compile-time expression is a layout of a well-grouped sentence; the grouping is transferred from C37 with fractions as parenthesised leaves; injectivity by unique separators |
| C83 | `SturmTextModel.v` (chain: `RootsModel.v`) | induction over the chain with the division theorem of C04; text by induction, determined by splitting at the first comma and counting commas |
| C84 | `PolyModel.v` at `D_num` (`FloatModel.v`) | entry formulas of the loops for any number type, then one rounding per operation (Flocq); products and division by induction over the accumulation with the bound (1+2^-53)^n - 1; finiteness is propagated backwards from the result |
| C85 | `PolyModel.v` at any ring, `ComplexModel.v` (std::complex, its text) | power sums in an arbitrary commutative ring (ring tactic on an abstract `ring_theory`), convolution by induction on one factor, invariant of the division loop; complex numbers shown to be such a ring |
| C86 | `VecPolyModel.v`: the loops of `PolyModel.v` with two coefficient types; 3-vectors and 3x3 matrices | laws of a vector space as hypothesis, shown for the three types; convolution by induction on the left factor for any bilinear product; components reduce to C01 and C05 |
| C49, C56 | Python operators, to_python, sub, derivative | values of Python objects; reflected - and / refuted |
| C52 | precision.hpp | Flocq magnitude as the frexp exponent |

Every property can be expressed in the model; none is `not_applicable`.  A
property whose full claim is false of the code has a theorem `*_refuted` (a
concrete input, computed in Coq) and the strongest true version as `*_partial`.

## 3. Trusted base

* Coq 8.16.1's kernel (`vm_compute`, `lazy` and `native`-free conversion).
* Axioms, all of the standard library and listed by `Print Assumptions` after
  each theorem in the `Prop*.v` files: `ClassicalDedekindReals.sig_forall_dec`,
  `ClassicalDedekindReals.sig_not_dec`,
  `FunctionalExtensionality.functional_extensionality_dep` (the reals) and
  `Classical_Prop.classic` (through the library's analysis).  Theorems without
  real numbers (containers, strings, parser grammar, constants, XML) are closed
  under the global context.  The module-opaque definitions of the real numbers
  (`RbaseSymbolsImpl`) are parameters of sealed library modules, not axioms.
  No axiom, functor or module type is added here.
* The reading of the C++ source by the author of the model (the code is not
  run): compiler, standard library, Boost, Eigen, pugixml and pybind11 are
  outside the model.

### Modelled

| file in /repo/stator | model |
|---|---|
| symbolic/polynomial.hpp (LinBairstowSolve: BairstowModel.v; rounded evaluation: RoundModel.v) | PolyModel.v, RootsModel.v, SolverModel.v |
| symbolic/numeric.hpp, precision.hpp | NumericModel.v |
| orphan/*.hpp (stack_vector, static_list, template_config) | OrphanModel.v |
| symbolic/array.hpp (addressing, elementwise, fixed capacity) | ArrayModel.v, FixArrayModel.v |
| symbolic/runtime.hpp (constructors of Expr, as<>) | ConvModel.v |
| string.hpp | StringModel.v |
| symbolic/runtime.hpp, *_rt.hpp, units.hpp, dict.hpp (shared nodes: ExprShare.v) | ExprModel.v |
| symbolic/parser.hpp, repr.hpp, repr of expressions | ParserModel.v, LatexModel.v, PrintModel.v (polynomials) |
| symbolic/numeric.hpp and solve_real_roots (Sturm mode), in IEEE doubles | FloatModel.v, FloatSolver.v |
| unit_test.hpp | UnitTestModel.v |
| exception.hpp | ExceptionModel.v |
| symbolic/ad.hpp | AdModel.v |
| constants.hpp, symbolic/constants.hpp, generic.hpp (factorials) | ConstModel.v, ConstFloatModel.v |
| symbolic/{binary_ops,unary_ops,sub,simplify,integrate,taylor}.hpp | CtModel.v, ExpandModel.v (polynomials) |
| geometry/*.hpp | GeomModel.v |
| xml.hpp | XmlModel.v (getPath), XmlDocModel.v |
| pysrc/stator/core.cpp | PyModel.v, PyTextModel.v |
| repr.hpp on doubles | FloatTextModel.v |
| constants.hpp:165-172, std::complex coefficients | ComplexModel.v |
| polynomials with Eigen coefficients | VecPolyModel.v |

### Not modelled

* IEEE rounding, NaN and overflow of doubles except in C02, C09, C30, C56, C62, C67 to C71, C73, C75, C76, C80, C81, C84 and C85 (exact
  reals elsewhere; FloatModel.v uses Flocq's binary64, round to nearest even, no
  extended precision or fused multiply-add, one choice of NaN payloads that no
  theorem depends on).
* `fast_sub`, which does not compile (it reads members `_var`, `_val` that the
  relation type does not have).
* Debug output of repr except through Python (C77); `isdigit` of negative chars.
* Matrices (Eigen) except their text (C78) and as coefficients (C86); complex numbers
  except as coefficients and their text (C85); uncertainty arithmetic.
* pybind11's conversions, pugixml's parser.
* geometry/indicator.hpp says `using namespace stator::symbolic`, a namespace
  that does not exist at this commit; it is modelled as if it compiled.
