# Formal model of math_utils_lib in Rocq (Coq 8.16.1)

Build: `cd rocq && coq_makefile -f _CoqProject -o Makefile && make -j4` (about 1.5 minutes).

## 1. What is modelled

Model files in `rocq/theories`; every definition cites the lines of `/repo` it models.

| file | models |
|---|---|
| `Base.v` | outcomes (`Ok`/`Err`/`Panic`/`Fuel`), strings as lists of Unicode scalar values, slices, loops with `?` |
| `F64.v` | IEEE binary64 (Coq's `SpecFloat`, prec 53, emax 1024): + - * / sqrt, comparisons, casts, `round`, `str::parse::<f64>` (full grammar, correctly rounded), `to_string` and `{:+e}` (shortest text that reads back) |
| `Num.v` | the record `Num` of number operations the crate uses; its binary64 instance `F64 lm` with an arbitrary platform maths library `lm`; `powi`; the record `Env` of the build configuration (`high-prec`, `row-major`) and of the Unicode character classes outside ASCII |
| `Types.v` | `Value`, `Values`, `Variable`, `Function`, `Context`, `AST`, the error enums (basetypes.rs, errors.rs) |
| `Maths.v` | maths.rs, maths/{add_sub,mult_div,cross_pow,special}.rs |
| `Helpers.v` | helpers.rs: `cart_prod`, `get_args` |
| `Parser.v` | parser.rs: `parse` and everything below it |
| `Eval.v` | parser.rs: `eval`; maths/calculus.rs; roots.rs; solver.rs; lib.rs: `quick_eval` |
| `Print.v` | helpers.rs formatting, basetypes.rs string/Unicode/LaTeX output, latex.rs `Step` and the `.tex` export, errors.rs `get_reason` |
| `Api.v` | the `value!` macro, constructors of `Values`, `Variable`, `Function`, `MathLibError`, `LatexError` and the `From` conversions |
| `Exact.v` | a second instance of `Num`: any Archimedean field with infinities and NaN (see below) |

Panics (index out of bounds, `unwrap` on `None`, `usize` underflow) are explicit outcomes. Recursion and the
`while` loop of the integral run on fuel; `Fuel` is an outcome of its own, so a theorem about a result says that
the outcome is not `Fuel`, and "diverges" means "`Fuel` for every amount of fuel". C10 shows that the amount of fuel
does not matter otherwise.

**Two number instances.** The functions of the model are polymorphic in `Num`. Theorems stated for every `Num`
hold for the program as it runs whatever the floating-point arithmetic does. Theorems about `F64 lm` are about
binary64 with the rounding of IEEE 754 and quantify over `lm` (sin, cos, tan, asin, acos, atan, ln, powf are
arbitrary functions). Theorems about `Exact L` (C22-C26, C29, C31, C38, C49) say what the *algorithms* compute in
exact arithmetic; there the same model functions run over a field with no rounding and with one zero; they say
nothing about rounding errors.

### Not modelled
`png_from_latex`, `svg_from_latex`, PDF export (other crates), serde derives, `println!` in the integral, the
stack overflow and memory exhaustion, `i32` wrap-around of lengths above 2^31,
the bit-exact results of sin/cos/tan/asin/acos/atan/ln/powf. Rust references and ownership: contexts passed as
`&Context` are values in the model, `&mut Context` is returned.

## 2. Trusted base
* Coq's kernel (`vm_compute` included); coqchk re-checks the compiled files.
* That the model files say what the Rust code does (read side by side; the code cannot be run here).
* The model was also run on the repository's own tests: `RepoTests.v` replays src/tests.rs (all tests without a search
  for solutions or an integral; they are re-checked in every build). The tests with integrals and searches
  (calculus_eval2, easy_solve1, medium_solve1-4, calculus_solve1, hard_solve3-6) were run once with `vm_compute` (1-8 minutes each)
  and give the results the tests demand.
* The meaning of Rust's std functions as written in `Base.v`/`F64.v`/`Num.v` (IEEE arithmetic, correctly rounded
  decimal parsing, shortest printing, stable sort, `powi` as square-and-multiply, `as i32`/`as usize` casts).
* Axioms. No file declares any. `Print Assumptions` of the theorems named in MANIFEST.json:
  * *Closed under the global context* (no axiom): all the others, that is 302 theorems.
  * `ClassicalDedekindReals.sig_forall_dec`, `ClassicalDedekindReals.sig_not_dec`, `Classical_Prop.classic`, `FunctionalExtensionality.functional_extensionality_dep`: `c21_double_negation`, `c21_ieee_addition`, `c21_negation`, `c21_subtraction`, `c25_binary64`, `c30_terminates_if_every_step_counts`, `c30_terminates_iff_every_step_counts`, `c32_every_equation`, `c41_scalar`, `c41_value`, `c41_values`, `c41_vector`, `c44_nearest`, `c44_never_minus_zero`, `c44_reads`, `c44_scientific`, `c51_abs_exact`, `c51_sqrt_rounded`, `c52_literal`, `c52_value`, `c54_numbers`, `c57_numbers`, `c63_negation`, `c63_operation`, `c64_dot_product`, `c64_matrix_product`, `c64_matrix_vector`, `c65_results_are_doubles`, `c65_results_read_back`, `c65_value_reads_back`, `c65_variables_are_doubles`, `c67_equality`, `c75_accuracy`, `c76_linear_equation`, `c76_over_reals`, `c76_real_equations`, `c77_derivative`, `c77_difference_quotient`, `c78_integral`, `c79_e`, `c79_pi`, `c80_constants`, `c80_cos`, `c80_number`, `c80_propagation`, `c80_sin`, `c82_absolute_value_of_minus`, `c82_cross_product_antisymmetric`, `c82_difference_with_itself`, `c82_double_minus`, `c82_one_times`, `c82_over_one`, `c82_quotient_by_itself`, `c82_root_of_square`, `c82_signs_of_products`, `c82_signs_of_quotients`, `c82_twice`, `c84_error`, `c84_fixed`, `c84_idempotent`, `c84_monotone`, `c84_nearest`, `c84_whole`, `c84_whole_idempotent`, `c87_true_root`, `c88_close`, `c89_contradiction`, `c89_no_answer`, `c89_no_square`.
  * `ClassicalDedekindReals.sig_forall_dec`, `FunctionalExtensionality.functional_extensionality_dep`: `c27_indexing`, `c43_as_unicode`, `c43_as_unicode_at_var`, `c43_matrix_layout`, `c43_symbol_misaligned`, `c43_vector_layout`, `c43_widths`, `c44_zero`, `c46_export`, `c46_function`, `c46_inline`, `c46_step`, `c46_tree`, `c46_value`, `c46_values`, `c46_variable`, `c61_one_mark`, `c75_estimate_unique`, `c75_exact`, `c77_differentiable`, `c84_not_idempotent`, `c87_derivative`.

  These come from Coq's standard library of real numbers, reached through Flocq (theorems that compare a float with
  the real number it denotes). `FunctionalExtensionality` is the standard library's.
* vcheck's list `library_axioms` is longer: coqchk also prints the fields of sealed modules
  (`mathcomp.ssreflect.bigop.BigOp.bigop`, `...finset.SetDef.finset`, `Coq.ssr.ssrunder.Under_rel...`,
  `Coq.Reals.Rdefinitions.RbaseSymbolsImpl...`). They are definitions hidden behind a signature in the libraries, with
  bodies, not axioms; `Print Assumptions` does not list them.
* Libraries: Coq's standard library, Flocq (binary64 and real numbers), mathcomp (matrices, fields). 

## 3. Where statements and specifications are
Property theorems are named `cNN_...` after the property and live in the `Prop*.v` files (and `DecimalText`,
`ContextProofs`, ... for a few); beside them `Module Examples` shows that the hypotheses are met by concrete
non-trivial cases and exhibits findings. Specifications, independent of the model's helpers:
`GrammarSpec.v` (the language of expressions: a precedence-directed relation between texts and trees), `SpecEval.v`
(finite-map contexts, big-step meaning of operators), `ShapeSpec.v` (kinds and sizes of values), `CalcSpec.v`
(difference quotients, sample sums), `SolveSpec.v` (Newton steps, choices of previous solutions), `ExactSpec.v`
(model matrices as mathcomp matrices), `LatexSpec.v` (TeX-like reader), `SpellSpec.v` (which texts spell which trees), `SearchSpec.v` (Newton's method as a relation),  `KindSpec.v` (static check of kinds), `AlgebraSpec.v` (what expressions denote in linear algebra), `EstimateSpec.v` (exact value and error bound of an expression), `SlopeSpec.v` (polynomial expressions and how much they bend), `AreaSpec.v` (parts of the error of an integral), `PropagateSpec.v` (how error bounds propagate), `ReplaceSpec.v` (replacing parts, filling in values), `RenameSpec.v` (renaming, alpha-equivalence), `ErrorSpec.v` (what errors say), `DecimalText.v` (decimal texts).

All files:

* `AlgebraSpec.v` - what an expression denotes in linear algebra (specification for C73).
* `Alpha.v` - functions that differ in their local names, and bound variables.
* `Api.v` - constructors, accessors and conversions of the public types (/repo/src/basetypes.rs, /repo/src/errors.rs).
* `AreaSpec.v` - the parts of the error of a computed integral.
* `Base.v` - outcomes, strings and slices shared by every part of the model.
* `BaseFacts.v` - reasoning about outcomes and loops of [Base.v].
* `CalcProofs.v` - integrals and derivatives.
* `CalcSpec.v` - what integrals and derivatives compute, in a few lines.
* `Closure.v` - a set of numbers that is closed under the number operations is closed under evaluation.
* `ContextProofs.v` - contexts as maps, and evaluation depends on a context only through the bindings of the names that occur.
* `DecimalFloat.v` - what [parse_f64], [show_f64] and [show_sci_f64] mean.
* `DecimalShort.v` - [shortest] finds the shortest decimal that reads back.
* `DecimalText.v` - decimal texts and the integers they stand for (proofs about the text level of F64.v).
* `ErrorSpec.v` - what an evaluation error says (specification for C59).
* `EstimateSpec.v` - what an arithmetic expression means over the real numbers, and how far rounding can lead away from it.
* `Eval.v` - evaluation of ASTs (/repo/src/parser.rs:390-586), calculus (/repo/src/maths/calculus.rs), root finding (/repo/src/roots.rs), the deprecated solver (/repo/src/solver.rs) and [quick_eval] (/repo/src/lib.rs:168-173).
* `EvalErrors.v` - which errors evaluation ends with, and what they say.
* `EvalFuel.v` - more fuel never changes an outcome of [eval].
* `EvalLim.v` - evaluating two related terms in two related contexts, without a bound on how much more work the second evaluation takes.
* `EvalProofs.v` - evaluation, case by case.
* `EvalRecursion.v` - what happens to recursive functions.
* `EvalRel.v` - evaluating two related terms in two related contexts.
* `EvalTotal.v` - termination of [eval] without integrals and with acyclic functions; the solver's internal errors never escape.
* `Exact.v` - the number operations in exact arithmetic.
* `ExactElim.v` - Gaussian elimination in exact arithmetic.
* `ExactGauss.v` - inverse and linear systems in exact arithmetic.
* `ExactLinear.v` - what the matrix functions compute in exact arithmetic.
* `ExactPivot.v` - what elimination without row exchanges does when it meets a zero pivot (exact arithmetic).
* `ExactRound.v` - integers, rounding, powers and cross products in exact arithmetic.
* `ExactSpec.v` - vectors and matrices over a field as values (specification).
* `F64.v` - IEEE-754 binary64 as used by the crate ([f64]).
* `FloatFacts.v` - binary64 arithmetic of the model against Flocq.
* `FloatLaws.v` - identities that hold bit for bit in binary64.
* `FloatSqrt.v` - in binary64 the square root of a square is the absolute value.
* `GrammarSpec.v` - a grammar for the expressions of the crate's documentation.
* `Helpers.v` - /repo/src/helpers.rs (formatting helpers are in Print.v).
* `KindSpec.v` - a static check of kinds (specification for C71).
* `LatexGrammar.v` - how a reader groups LaTeX mathematics (for C57).
* `LatexSpec.v` - when a LaTeX text is balanced (for C46).
* `Maths.v` - operations on values (/repo/src/maths.rs and /repo/src/maths/{add_sub,mult_div,cross_pow,special}.rs).
* `MathsForms.v` - closed forms of the operations on well-formed values.
* `Num.v` - the number operations the crate uses, as a record.
* `Parens.v` - parentheses and the multiplication sign do not matter.
* `ParseErrors.v` - which errors reading a text ends with, and what they say.
* `Parser.v` - /repo/src/parser.rs:1-388 ([parse] and what it calls).
* `ParserBase.v` - the parser terminates, does not panic on ASCII text, and what holds of every AST it returns.
* `ParserGrammar.v` - every expression of the grammar of [GrammarSpec] is parsed to its tree.
* `ParserGrammar2.v` - every expression of the grammar of [GrammarSpec] is parsed to its tree (phrases).
* `ParserGrammar3.v` - every expression of the grammar of [GrammarSpec] is parsed to its tree (the parser).
* `ParserSpec.v` - vocabulary for statements about parsing.
* `ParserTop.v` - [parse] as a whole: enough fuel, white space, brackets.
* `Print.v` - conversion to strings, Unicode and LaTeX (/repo/src/helpers.rs:3-58, /repo/src/basetypes.rs:306-875, /repo/src/latex.rs:68-172, /repo/src/errors.rs).
* `PrintFloat.v` - rounding to decimals in binary64, and the text of the result.
* `PropAccuracy.v` - C55 - how far integrals and derivatives are from the true ones; C56 - they are linear. Exact arithmetic.
* `PropAlgebra.v` - C73 - in exact arithmetic an expression evaluates to what linear algebra says it denotes ([AlgebraSpec.v]).
* `PropAnswers.v` - C72 - eq answers whenever the equations are about numbers.
* `PropApi.v` - values, sets of values and errors as data (C67).
* `PropArea.v` - C78 - integrals of polynomial expressions in binary64.
* `PropCalc.v` - C28, C29 (any arithmetic), C30, C31 - integrals and derivatives.
* `PropCalcExact.v` - C29 and C31 in exact arithmetic.
* `PropConstants.v` - C79 - the names pi and e of a new context stand for the doubles nearest to the numbers pi and e.
* `PropErrors.v` - error messages (C59).
* `PropEstimate.v` - C75 - error bounds for arithmetic expressions of any size in binary64; C76 - what [eq] returns nearly solves the real equations.
* `PropEval.v` - properties of evaluation (C10-C18, C36, C40, C50).
* `PropExact.v` - C22-C26, C38, C49 - linear algebra and rounding in exact arithmetic.
* `PropFaults.v` - C83 - where the errors and panics of eq come from.
* `PropFinder.v` - property C74 ([RootFinder::new] and [find_roots], the root finder used directly).
* `PropFloat.v` - C21 and C27 - what the operations do in binary64.
* `PropIntegers.v` - C88 - with one unknown, whole-number solutions between -1000 and 999 are found, in binary64.
* `PropIntegersClose.v` - C88, the distance of the answer found to the whole number.
* `PropKinds.v` - C71 - expressions that pass a static check of kinds evaluate without error, to the predicted kind and number of values.
* `PropLatex.v` - C46 - the generated LaTeX is balanced.
* `PropLatexReads.v` - C57 - the LaTeX of an expression is read as that expression.
* `PropLaws.v` - C82 - the laws of algebra that hold bit for bit although every operation rounds.
* `PropLinear.v` - C60, systems of linear equations in exact arithmetic.
* `PropMulti.v` - C70 - integrals and derivatives of several values, of vectors and of matrices.
* `PropMultiExact.v` - C70 in exact arithmetic.
* `PropNoAnswer.v` - C89 - equations that are not nearly satisfied by any real numbers have no answers.
* `PropNoUnknowns.v` - C86 - [eq(...)] without unknowns is a test of its equations.
* `PropNotation.v` - C53 - parentheses and multiplication signs do not matter.
* `PropNumber.v` - C51 - the functions of one and two numbers; C52 - number literals.
* `PropPanics.v` - C85 - every panic of eval comes from an equation.
* `PropParser.v` - properties of [parse] (C01-C09).
* `PropPivot.v` - C24, C38 completed - finite answers are right, and when they are finite (exact arithmetic).
* `PropPower.v` - C25 in binary64 - matrix powers for every double as exponent.
* `PropPrint.v` - C42, C43, C44, C45, C47 - texts shown to the user.
* `PropPropagate.v` - C80 - errors propagate by the rules of PropagateSpec.
* `PropRename.v` - the choice of names does not matter
* `PropReplace.v` - equal parts can be exchanged, a variable stands for its values, a call stands for the body of the function
* `PropResults.v` - C65 - in every session, every result is made of doubles and can be read back.
* `PropRoots.v` - C81, equations in one unknown in exact arithmetic: when the search converges, and quadratic equations.
* `PropRoundDec.v` - C84 - Value::round in binary64.
* `PropRoundTrip.v` - C41 - printed values read back.
* `PropRounding.v` - C63 - scalar arithmetic is correctly rounded; C64 - error bounds for dot products and matrix products in binary64.
* `PropSearch.v` - C69 - what eq computes: which choices of equations it searches, from which points, and what it reports.
* `PropShapes.v` - C19, C20, C48 - kinds of values.
* `PropSlope.v` - C77 - derivatives of arithmetic expressions in binary64.
* `PropSolve.v` - properties C32-C35, C37 and C39 (equations).
* `PropSpell.v` - every accepted text spells out the tree it is read as (C58).
* `PropSteps.v` - C61 - what a recorded step shows; C62 - Greek names.
* `PropString.v` - C54 - the text of an expression reads back.
* `PropStringFloat.v` - C54 for binary64 numbers.
* `PropTrueRoot.v` - C87 - next to an answer of [eq] there is a root of the real equation, if the graphs of the two sides cross steeply enough.
* `PropagateSpec.v` - how errors propagate through an expression.
* `Rename.v` - evaluation commutes with renaming.
* `RenameSpec.v` - renaming variables and functions.
* `Replace.v` - replacing a part of an expression by one with the same outcomes.
* `ReplaceSpec.v` - replacing parts of an expression.
* `RepoTests.v` - the repository's own tests, run on the model.
* `Search.v` - the model's Newton loops do what [SearchSpec] says.
* `SearchSpec.v` - how [eq(...)] looks for solutions.
* `ShapeSpec.v` - kinds of values (specification).
* `Shapes.v` - kinds are respected by every operation and by evaluation.
* `SlopeSpec.v` - polynomial expressions in one variable, and a bound for how far their graph bends away from its tangent.
* `SolveFloat.v` - a small Euclidean length bounds every component (binary64).
* `SolveForward.v` - what the solver does when every evaluation succeeds.
* `SolveProofs.v` - the equation solver, step by step.
* `SolveProofs2.v` - choices of equations, cleaning of results, the whole solver.
* `SolveSpec.v` - what [eq(...)] promises, in terms of evaluation.
* `SpecEval.v` - vocabulary for statements about evaluation.
* `SpellSpec.v` - what it means that a text spells out a tree.
* `Toy.v` - a concrete build of the crate, used only to exhibit examples.
* `Types.v` - values, variables, functions, contexts, ASTs and errors (/repo/src/basetypes.rs, /repo/src/errors.rs).

## 4. Properties: what is modelled and how it is proved

| id | approach |
|---|---|
| C01 | induction on length: every recursive call of the parser is on a shorter string, every slice is in range unless the piece at hand is a call with a non-ASCII name or a non-ASCII bracket (the panic condition of the induction is closed under pieces); two witnesses of a panic |
| C02 | `parse` only sees the string without blanks; equality of stripped strings |
| C03 | `GrammarSpec.v`: grammar with precedences and associativity; induction on derivations that the operator chosen by the scan is the root; unambiguity |
| C04 | scan lemmas for balanced strings; evaluation of the parenthesis node |
| C05 | counting parentheses |
| C06 | invariant of the parser (well-formed AST), transposition lemma for literals |
| C07 | invariant of the parser |
| C08 | induction over the text with bracket depth |
| C09 | direct, with C08 |
| C10 | fuel monotonicity by induction on fuel |
| C11 | induction on (rank of function, AST depth) |
| C12 | direct; divergence by induction on fuel |
| C13-C16 | case analysis of `eval`, `nth_error`/`In` characterisations of the result lists |
| C17 | extensionality of `eval` by induction on fuel, through calculus and root finder |
| C18 | refinement of the association list to a finite map, induction over histories |
| C19,C20,C48 | shape calculus; induction on fuel for `eval` |
| C21,C27 | binary64: case analysis and Flocq on valid floats |
| C22-C26,C38,C49 | `Exact L`: refinement to mathcomp matrices (`*m`, `\det`, `invmx`), induction on sizes; Gaussian elimination by loop invariants |
| C28,C30 | induction on loop fuel; binary64 monotonicity of addition |
| C29,C31 | sums of samples in any arithmetic; closed forms in exact arithmetic |
| C32-C37,C39 | induction through `newton_loop`, `start_loop`, `comb_loop`, `clean_results` |
| C40 | unfolding the two stages |
| C41 | shortest decimal text reads back (Flocq: 17 digits suffice); scan lemmas for the parser |
| C42,C43 | list induction; ASCII texts have byte length = length |
| C44 | error of the scaled rounding (Flocq), uniqueness of 15-digit decimals, shortest text = plain decimal |
| C45,C47 | list induction |
| C46 | automaton invariant ("neutral in every surrounding"), induction over trees |
| C50 | direct from `str::parse::<f64>` |
| C51 | the text `f(t)` through the grammar of C03 and the meaning of operators; square root and absolute value through Flocq |
| C52 | `f_of_dec` is correctly rounded (Flocq); positional notation is specified separately over the reals; the threshold of overflow by computing one literal |
| C53 | a normal form of trees (no parentheses, explicit signs) evaluates like the tree: one direction by the fuel-monotone relation of EvalRel.v, the other by bounding the extra fuel with the number of parentheses |
| C54 | induction on the grammar of C03: the printed text is derived by the grammar with the same tree up to parentheses around exponents; C53 gives the same meaning; numbers by the rounding theorems of C44; equation systems: each printed side is derived by the grammar, so the entries of the system are |
| C55 | the sum of C29 telescopes against G; each strip is bounded by the remainder at the sample |
| C56 | C29 and C31 give the exact sum and quotient, which are linear |
| C57 | a levelled grammar of LaTeX (LatexGrammar.v); induction on the tree and on the source grammar of C03 shows that the printed LaTeX is derived with the same tree; a second lemma shows that the grammar never groups against the conventions |
| C58 | the scan finds exactly the operators outside brackets, in order (induction on the text with three bracket counters); the chosen one is the root; induction on fuel for the spelling; induction on length for the pieces |
| C59 | a predicate on errors is carried through evaluation (with the names every context on the way defines) and through the parser (every text parsed on the way is a piece of the input); messages are told apart by their fixed beginnings (finite check), their variable parts by cancellation |
| C60 | over any archimedean field: for a linear system the difference quotients are the entries of A, the Newton step is exact by C24/C38, so each of the 2000 searches ends after at most one step; induction over the list of start points; the cleaning step leaves one copy |
| C61 | case analysis on the step; one mark: the parts are neutral for the automaton of C46, which now rejects alignment marks outside environments |
| C62 | the table is compared with the order of the Unicode blocks (finite check); other names by the search of the table; injectivity pairwise over the table |
| C63 | Flocq's correctness of the four operations, via the equivalence of the stdlib's SpecFloat operations with Flocq's (FloatFacts.v), and nearest_double as in C52 |
| C64 | induction over the number of terms: relative error of a product with underflow term, relative error of a sum (no underflow), first addition exact; the same induction for the absence of overflow |
| C65 | Closure.v: a set of numbers closed under the number operations is closed under evaluation, including the solver, by induction over the evaluation; combined with shapes (C19/C48) and the round trip (C41); induction over the session |
| C66 | EvalLim.v: a limit version of the simulation of EvalRel.v (the second evaluation may take any finite number of further steps), through the integration, differentiation and root-finding loops; Replace.v: induction over the evaluation with a relation "same up to replaced parts" between expressions and between contexts; calls: the body without calls depends only on the variables it mentions (C17) |
| C67 | case analysis; `==` through the comparison of binary64 numbers as reals |
| C68 | Rename.v: evaluation commutes with an injective renaming, by induction over the evaluation, through all loops; Alpha.v: induction over the evaluation with contexts that agree on a set of names and whose functions are alpha-equivalent; outcomes are compared up to the name in "variable not found" |
| C69 | SearchSpec.v: the search as an inductive relation on points; Search.v: the loops of the model against it in both directions (a step of the model is a step of the relation; errors of expressions are never the internal signals, C36; the temporary context is restored), limit in the fuel by induction on the relation; PropSearch.v: choices in lexicographic order, first success |
| C70 | PropMulti.v: generic in the number type; loop invariant: the i-th sum is the total of the i-th column; vectors and matrices through the closed forms of the arithmetic; PropMultiExact.v instantiates with the exact numbers |
| C71 | `KindSpec.kind_of` is a small checker written down separately; soundness by induction over its depth with the evaluation lemmas of C14-C16, C19, C31 |
| C72 | totality of the search of C69: Gauss elimination is total on n x (n+1) systems, hence Newton runs, the starting points and the choices of equations; the static condition by C71 |
| C73 | `AlgebraSpec.means` says what an expression denotes (mathcomp matrices, no evaluator); induction over it with the single-operation theorems C22-C27 and the evaluation lemmas of C13-C16 at the exact instance; the laws follow from mathcomp's |
| C74 | PropFinder.v: case analysis of `rf_new` against a separate list of the operations (`computes`/`plain`), limit in the fuel; the kept combinations are determined by being the choices in lexicographic order; roots by the invariants of C32 |
| C75 | EstimateSpec.v: exact value, magnitude and number of roundings by recursion on the expression; induction with the single-operation error bounds of Flocq (C49/C62) as invariant |x - exact| <= reach - magnitude and |x| <= reach |
| C76 | the computed difference of the sides is below 10^-PREC at every answer (C32); C75 at that point turns this into a statement about the real difference; results are doubles by C65 |
| C77 | SlopeSpec.v bounds size, slope and curvature of a polynomial expression by recursion; induction gives a tangent with quadratic error, hence the derivative of Coq's Reals; the computed quotient by C31 and the bounds of C75 |
| C78 | AreaSpec.v; induction over the visited points (each step moves by dx up to rounding, hence the loop ends), mean value theorem on each strip, the sum by the estimates of C75 |
| C79 | PropConstants.v: pi from the arctan series of Machin's formula (standard library), e from the alternating series of exp(-1), both with rational partial sums; a double closer than half the spacing is nearest (Flocq) |
| C80 | PropagateSpec.v gives the rules; induction over the derivation: each operation is correctly rounded (C63), so the bound of the operands plus one rounding bounds the result; the shapes by the closed forms of MathsForms; calls by the evaluation lemma of C16 |
| C81 | PropRoots.v: from the executions of SearchSpec (C70, C73): a run from t is a chain of next_at steps; a contraction gives a run that stops within 1000 steps; for a quadratic the secant with step 10^-PREC contracts by 1/2 to the right of the larger and to the left of the smaller solution; a point with a residual below 10^-PREC is within 2*10^-PREC of a solution; the representatives near one solution fall into two rounding cells |
| C82 | FloatLaws.v, FloatSqrt.v, PropLaws.v: identities of the Flocq operations (commutativity from the definitions, exactness of the operations with 1, 2 and -1; sqrt of a rounded square by an error bound of half an ulp on each side), lifted through the tables of C11 to expressions; the failing laws by computation on literals |
| C83 | PropFaults.v: every failing branch of the model's loops is traced to an evaluation of a difference of two sides at a point or beside it (contexts compared by C17); gauss_algorithm and clean_results do not fail otherwise |
| C84 | PropRoundDec.v: 10^p is a double for p <= 22 (checked for the 23 values), then product, f64::round and quotient are each related to the reals (round to nearest even, Flocq); order by monotonicity of each of the three steps, with infinities at +-2^1024 |
| C85 | PropPanics.v: the induction of C48 with "some equation is to blame" in place of "no panic"; for eq(...) C83's trace at the same fuel, so the blamed evaluation is smaller |
| C86 | PropNoUnknowns.v: without unknowns each of the 2000 searches ends in its first step with the same result, by induction over the list of starts; the copies of the empty vector are merged by clean_results |
| C87 | PropTrueRoot.v: the slope is the derivative of the graph by induction over polynomials; the root by the intermediate and mean value theorems from the real bound of C76 |
| C88 | PropIntegers.v: the one-row elimination never reports infinitely many solutions, so every one of the 2000 starts is searched; the start j is an answer at once; clean_results keeps a value that rounds like it (C69); the distance (PropIntegersClose.v) by C84 |
| C89 | PropNoAnswer.v: the real bound of C76, read backwards; for the two families the bound is computed for all points at once, and C72 shows that the call succeeds |

## 5. Findings (places where the code does not do what a user would expect)
Each is proved, as a theorem or an `Example` beside the property.

* Non-ASCII text can make `parse` panic: byte offsets are used as character offsets (C01).
* `8/4/2` groups to the right and gives 4 (C03, `c03_division_groups_right`).
* A sign after an operator (`2*-3`) is rejected, a leading operator accepted, `f(x)g(y)` misread (C03).
* The variable names given to D, I and eq are not checked (C07); further `=` in an equation are dropped (C08).
* `eq(x=1,x)y` is accepted: the `y` is dropped and the search variable is called `x)`; so is `D(x,x)[,3y` (C58).
* A function sees the variables and parameters of its callers: renaming a parameter can change what another function computes (C68, `caller_seen`).
* Mutual recursion, and recursion inside a derivative, never return (C12).
* Invertible matrices with a zero pivot give NaN entries (C24); negative matrix powers give the identity (C25); `M^inf` performs 2^31-1 multiplications instead of failing (C25).
* `D(x,x,2^28)` is 0: the step is lost in rounding; `calculate_derivative` deletes the caller's variable (C31).
* The integral can run forever for large bounds (C30), and is a left sum: linear integrands are off (C29).
* The integral of a vector over equal bounds is the number 0; the derivative of a vector is computed with `*(1/h)`, that of a
  number with `/h`, so a component need not equal the derivative of the component (C70).
* Without search variables a true system is answered by the empty vector; only the first equation is tried out, so a
  vector in a later one panics; only the first value of each equation counts (C32, C34, C35).
* A linear system with infinitely many solutions (`x+2y=1, 2x+4y=2`) is answered by the empty list (C60, `c60_dependent`).
* 576460752305 is shown as 576460752304.9999, 10^298 as inf (C44); Greek names misalign the Unicode output (C43);
  empty vectors and matrices panic when printed (C43).
* `+-` prints `\pm` without a blank (`a\pmb`), inline function steps contain `&` (C46), `\chi` has no symbol, `\pi` is not
  converted, `\epsilon` and `\Gamma` are bold, `\xi` is
  listed twice (C62).
* `as_string` does not always read back: `a&b` becomes `a +- b` (a plus minus b), `a#b` and `a?b` become the names
  `axb` and `a_b`, `abs(x)` becomes `|x|`, `x^2y` becomes `x^(2)y` (rejected), `0.0000001` becomes `1e-7` (read as
  1e minus 7), an equation system loses its variables, column-major matrices are transposed (C54).
* `as_latex` drops needed brackets: `inv(a+b)` becomes `a+b^{-1}`, `inv(a)^b` a double superscript, `I(x,x,a,b)^c` a
  power of dx, `a_1?b` a double subscript, `2inv(3)` the inverse of 23 (C57).

## 6. Testing the theorems
`seeded/mutate.py` applies the edits of `seeded/mutations.json` to a scratch copy of the model, rebuilds, and logs
which theorems fail in `seeded/LOG.jsonl`.
