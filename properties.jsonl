{"id": "C01", "title": "parse terminates, and panics only over non-ASCII calls and brackets", "statement": "parse(s) terminates for every string s. It panics only if s has a piece without operators outside brackets that is a call of a function with a non-ASCII name or a bracket [..] with a non-ASCII character in it (there byte offsets are used as character offsets, and panics do happen). In particular it returns Ok or Err for every ASCII string, for every string without ( and [, and whenever no non-ASCII character precedes a ( or follows a [.", "quantifier": "every string, of any length and nesting", "why_tests_cant": "the input space is infinite; a fuzzer samples a few thousand strings", "anchors": ["src/parser.rs: parse, parse_inner, parse_value, is_valid_var_name", "src/helpers.rs: get_args"]}
{"id": "C02", "title": "Blanks do not change what an expression means", "statement": "Adding or removing spaces anywhere in an expression, and white space at either end, does not change the result of parse (same AST or same error).", "quantifier": "every string and every placement of blanks", "why_tests_cant": "there are unboundedly many placements in unboundedly many strings", "anchors": ["src/parser.rs: parse"]}
{"id": "C03", "title": "Operator precedence and associativity", "statement": "Writing out an expression tree over + - & * / # ^ ? and the leading minus, with parentheses exactly where the documented priority order and the associativity of each operator demand, and parsing the text gives back that tree; so the meaning of every operator expression is determined by the priority table Add < Sub < AddSub < Mult < Neg < Div < Cross < HiddenMult < Pow < Get.", "quantifier": "every expression tree of any size over the binary operators", "why_tests_cant": "trees are unbounded; tests check a handful of two- or three-operator strings", "anchors": ["src/parser.rs: parse_inner, get_op_symbol"]}
{"id": "C04", "title": "Surrounding parentheses are transparent", "statement": "If every ')' of e closes an earlier '(' and e parses, (e) parses to a parenthesised node around the same tree (an error of e is an error of (e)), and evaluating it gives the same result (values or error) as evaluating e in every context.", "quantifier": "every expression and every context", "why_tests_cant": "ranges over all expressions and contexts", "anchors": ["src/parser.rs: parse_inner, eval_rec"]}
{"id": "C05", "title": "Unbalanced parentheses are reported", "statement": "A string with more '(' than ')' gives UnmatchedOpenDelimiter, one with more ')' than '(' gives UnmatchedCloseDelimiter, and a string of white space gives EmptyExpr.", "quantifier": "every string", "why_tests_cant": "all strings", "anchors": ["src/parser.rs: parse_inner", "src/errors.rs: ParserError"]}
{"id": "C06", "title": "Matrix literals: shape and orientation", "statement": "Every matrix node parse produces is rectangular and non-empty and every vector node non-empty. The literal [[a,b],[c,d]] lists columns by default and rows with the row-major feature: entry (i,j) of the result is entry (j,i), respectively (i,j), of the literal. A literal with rows of different lengths is rejected with NotRectMatrix.", "quantifier": "every string; every rectangular or ragged literal of any size", "why_tests_cant": "literals of every size and content", "anchors": ["src/parser.rs: parse_value"]}
{"id": "C07", "title": "Names accepted by the parser obey the naming rule", "statement": "Every variable and function name in an AST returned by parse starts with a letter or '\\\\', contains no operator character or '=' outside curly brackets, and contains a digit outside curly brackets only directly after '_'.", "quantifier": "every string parse accepts", "why_tests_cant": "all accepted strings", "anchors": ["src/parser.rs: is_valid_var_name, parse_inner"]}
{"id": "C08", "title": "Argument lists are split at top-level commas only", "statement": "The arguments of a call are recovered exactly: splitting the comma-joined text of any list of bracket-balanced, top-level-comma-free arguments gives back that list, and joining the pieces of any text gives back the text.", "quantifier": "every argument list and every text", "why_tests_cant": "unbounded lists and nesting", "anchors": ["src/helpers.rs: get_args"]}
{"id": "C09", "title": "Wrong argument counts of built-in operators are rejected", "statement": "root with anything but 2 arguments, D with anything but 3 and I with anything but 4 arguments is rejected with WrongNumberOfArgs.", "quantifier": "every argument list", "why_tests_cant": "any number and content of arguments", "anchors": ["src/parser.rs: parse_inner"]}
{"id": "C10", "title": "The result of eval is unique", "statement": "eval of an AST in a context has at most one outcome: once the recursion is given enough depth, more depth never changes the values, the error or the panic.", "quantifier": "every AST, context and recursion budget", "why_tests_cant": "needs all budgets and ASTs", "anchors": ["src/parser.rs: eval, eval_rec"]}
{"id": "C11", "title": "eval terminates when function calls are acyclic and there is no integral", "statement": "eval returns for every AST without integrals in every context whose functions can be ordered so that each body only calls earlier ones; equations included.", "quantifier": "every AST and every acyclic context", "why_tests_cant": "non-termination cannot be observed by a finite test", "anchors": ["src/parser.rs: eval_rec", "src/roots.rs: RootFinder::find_roots"]}
{"id": "C12", "title": "A function that directly calls itself is reported, mutual recursion is not", "statement": "Evaluating a call inside the body of the same function yields RecursiveFunction. Indirect recursion (f calls g, g calls f) is not detected: eval never returns.", "quantifier": "every function body, argument and context", "why_tests_cant": "divergence is not observable by running", "anchors": ["src/parser.rs: eval_rec"]}
{"id": "C13", "title": "Multi-valued operands combine pairwise in a fixed order", "statement": "If the operands have values l_0..l_{m-1} and r_0..r_{n-1}, the operation yields the m*n results op(l_i, r_j) ordered by i then j (two results per pair, sum then difference, for '&'); the first failing pair decides the error.", "quantifier": "every operator, every number of values", "why_tests_cant": "unbounded numbers of values", "anchors": ["src/parser.rs: eval_rec"]}
{"id": "C14", "title": "Vector and matrix literals with multi-valued entries", "statement": "A vector or matrix literal whose entries have several values evaluates to every combination exactly once, in lexicographic order with the last entry varying fastest; the number of results is the product of the numbers of values.", "quantifier": "every literal and every number of values per entry", "why_tests_cant": "unbounded", "anchors": ["src/parser.rs: eval_rec", "src/helpers.rs: cart_prod"]}
{"id": "C15", "title": "Variables and lists", "statement": "A variable evaluates to the values stored for it, an unknown one gives NoVariable with its name; a list evaluates to the concatenation of the values of its elements.", "quantifier": "every context and AST", "why_tests_cant": "all contexts", "anchors": ["src/parser.rs: eval_rec"]}
{"id": "C16", "title": "Function calls bind parameters and hide caller variables", "statement": "A call evaluates the arguments in the caller's context and the body once per combination of argument values, with the parameters bound to those values, hiding caller variables of the same name, and all other caller variables visible; a wrong number of arguments gives WrongNumberOfArgs(expected, given), an unknown function NoFunction.", "quantifier": "every function, argument list and context", "why_tests_cant": "all functions and contexts", "anchors": ["src/parser.rs: eval_rec"]}
{"id": "C17", "title": "eval depends on the context only through its bindings", "statement": "Two contexts with the same bindings (same variable and function for every name, no name twice) give the same result for every AST, whatever the order of insertion; variables whose name occurs neither in the AST nor, except as a parameter, in any function body do not matter.", "quantifier": "every AST and every pair of contexts", "why_tests_cant": "all contexts", "anchors": ["src/parser.rs: eval_rec", "src/maths/calculus.rs", "src/roots.rs"]}
{"id": "C18", "title": "A context is a map from names to definitions", "statement": "After any sequence of add_var, add_fun, remove_var, remove_fun starting from Context::default() or Context::empty(), each name has at most one variable and one function and looking a name up gives the definition added last (none after removal); operations on one name or kind do not affect others. A context built from lists by Context::new, from_vars or from_funs gives each name its first definition in the list and other names none.", "quantifier": "every history of context operations", "why_tests_cant": "unbounded histories", "anchors": ["src/basetypes.rs: Context"]}
{"id": "C19", "title": "Arithmetic is defined exactly on matching shapes", "statement": "For well-formed values (rectangular, non-empty matrices) each of add, sub, mult, div, cross, pow, get, det, inv and the scalar functions returns Ok exactly for the documented combinations of kinds and dimensions, and an error (never a panic) otherwise.", "quantifier": "every pair of values of every size", "why_tests_cant": "sizes are unbounded", "anchors": ["src/maths.rs", "src/maths/add_sub.rs", "src/maths/mult_div.rs", "src/maths/cross_pow.rs", "src/maths/special.rs"]}
{"id": "C20", "title": "Results of arithmetic are well-formed and have the expected dimensions", "statement": "When an operation on well-formed values succeeds the result is well-formed and its dimensions are the mathematical ones (n x k times k x m is n x m, and so on).", "quantifier": "every pair of values", "why_tests_cant": "sizes are unbounded", "anchors": ["src/maths.rs"]}
{"id": "C21", "title": "Addition, subtraction and negation are the IEEE operations", "statement": "Component by component a+b is IEEE addition, a-b equals IEEE subtraction bit for bit, -a flips the sign; a+b = b+a and -(-a) = a for all values, including infinities and NaN.", "quantifier": "every pair of f64 values, vectors and matrices of equal shape", "why_tests_cant": "2^128 pairs of floats and every size", "anchors": ["src/maths/add_sub.rs", "src/maths.rs: add, sub, neg"]}
{"id": "C22", "title": "Products are dot product, matrix-vector and matrix product", "statement": "In exact arithmetic mult of two matrices is the matrix product, of a matrix and a vector the linear map applied to the vector, of two vectors the dot product, of a scalar with anything the scaling.", "quantifier": "every field, every dimension and entries", "why_tests_cant": "dimensions and entries are unbounded", "anchors": ["src/maths/mult_div.rs"]}
{"id": "C23", "title": "det is the determinant", "statement": "For every square matrix of any size det returns, in exact arithmetic, the determinant; a non-square matrix is an error.", "quantifier": "every n and every n x n matrix over a field", "why_tests_cant": "unbounded size", "anchors": ["src/maths/special.rs: det_m"]}
{"id": "C24", "title": "inv returns the inverse when no pivot vanishes", "statement": "In exact arithmetic, if elimination without row exchange meets no zero pivot (all leading minors are non-zero), inv(A) is Ok and A*inv(A) is the identity; a matrix with determinant 0 is an error. For every invertible matrix inv is Ok, and its entries are all finite if and only if every leading minor is non-zero; whenever inv returns a matrix of finite entries it is the inverse. So an invertible matrix with a zero leading minor always yields a NaN or an infinity instead of its inverse - never wrong finite entries.", "quantifier": "every square matrix of any size", "why_tests_cant": "unbounded size and entries", "anchors": ["src/maths/special.rs: inv_m"]}
{"id": "C25", "title": "Matrix powers", "statement": "M^n for a square matrix and a non-negative integer n is the n-fold product (the identity for 0); a non-integer exponent is an error; a negative integer exponent silently gives the identity. In binary64 every double as exponent falls into one of these cases: an infinite or too large exponent counts as 2^31-1, minus infinity as negative, NaN as not an integer.", "quantifier": "every square matrix and exponent", "why_tests_cant": "unbounded exponent and size", "anchors": ["src/maths/cross_pow.rs: mspow"]}
{"id": "C26", "title": "Cross product", "statement": "The cross product of two vectors of equal dimension at most 3 (missing components 0) satisfies, in exact arithmetic, a x b = -(b x a), orthogonality to both factors and Lagrange's identity; dimension above 3 is an error.", "quantifier": "every pair of vectors", "why_tests_cant": "infinitely many vectors", "anchors": ["src/maths/cross_pow.rs: vcross"]}
{"id": "C27", "title": "Indexing a vector", "statement": "v?i returns component i (0-based) exactly when i is an integer with 0 <= i < len without sign; -0.0, fractions, negative numbers and NaN or infinities are errors, and never a wrong component.", "quantifier": "every vector and every f64 index", "why_tests_cant": "2^64 indices and every length", "anchors": ["src/maths.rs: get"]}
{"id": "C28", "title": "Integrals: bounds", "statement": "An integral over equal bounds is 0; exchanging the bounds does not change the result (no sign change); non-scalar bounds are an error; an outer variable with the name of the integration variable does not influence the result.", "quantifier": "every integrand, bounds and context", "why_tests_cant": "all integrands and bounds", "anchors": ["src/maths/calculus.rs: calculate_integral"]}
{"id": "C29", "title": "Integrals: what is computed", "statement": "In exact arithmetic the integral of f from a to b is dx times the sum of f at the 10^(PREC-3) points a + (k - 1/2) dx, k = 0, 1, ..., with dx = (b-a)/10^(PREC-3): it is exact for constants, and for a linear integrand m x + c it is off by exactly -m (b-a) dx.", "quantifier": "every integrand and every pair of bounds a < b", "why_tests_cant": "all integrands", "anchors": ["src/maths/calculus.rs: calculate_integral"]}
{"id": "C30", "title": "Integration terminates unless the step vanishes", "statement": "The integration loop terminates whenever every step b + dx is larger than b by at least a fixed amount; in binary64 it never terminates when dx is lost in rounding (b + dx = b), e.g. for bounds near 1e20.", "quantifier": "every integrand and pair of bounds", "why_tests_cant": "non-termination is not observable", "anchors": ["src/maths/calculus.rs: calculate_integral"]}
{"id": "C31", "title": "Derivatives: what is computed", "statement": "D(f,x,a) is the forward difference quotient (f(a+h)-f(a))/h with h = 10^-PREC for every value of f and a, with an outer variable x hidden; it is exact for linear functions in exact arithmetic; non-scalar a is an error, different numbers of values at a and a+h are an error.", "quantifier": "every f, a and context", "why_tests_cant": "all functions", "anchors": ["src/maths/calculus.rs: calculate_derivative"]}
{"id": "C32", "title": "Solutions satisfy the equations", "statement": "Every value returned by eq(..) is a point at which the search equations have residual norm below 10^-PREC and (for overdetermined systems) the remaining equations too, each evaluated in the caller's context with the search variables set to the returned numbers.", "quantifier": "every system of equations and context", "why_tests_cant": "all systems", "anchors": ["src/roots.rs: newton, find_roots"]}
{"id": "C33", "title": "Number, order and distinctness of solutions", "statement": "eq returns at most 10 solutions; no two of them agree after rounding to PREC-2 digits; if more than 10 were found the 10 of smallest absolute value (first component) are returned in increasing order.", "quantifier": "every system", "why_tests_cant": "all systems", "anchors": ["src/roots.rs: clean_results"]}
{"id": "C34", "title": "Form of solutions", "statement": "With one search variable every solution is a scalar, with n <> 1 variables a vector with n components in the order of the variables; all components are finite numbers.", "quantifier": "every system", "why_tests_cant": "all systems", "anchors": ["src/roots.rs: find_roots"]}
{"id": "C35", "title": "Equation errors", "statement": "No equation gives NothingToDoEq, a search variable already defined SearchVarsInVars, more variables than equations UnderdeterminedSystem, a first equation with vector or matrix value VectorInEq/MatrixInEq, in this order of precedence.", "quantifier": "every system and context", "why_tests_cant": "all systems", "anchors": ["src/roots.rs: RootFinder::new"]}
{"id": "C36", "title": "Internal solver signals do not escape", "statement": "eval never returns InfiniteSolutions, NaNOrInf or ExpressionCheckFailed.", "quantifier": "every AST and context", "why_tests_cant": "all ASTs", "anchors": ["src/roots.rs", "src/parser.rs: eval_rec"]}
{"id": "C37", "title": "Overdetermined systems try every choice of equations", "statement": "For n variables and m > n equations the solver tries every n-element subset of the equations exactly once, in lexicographic order, and checks the rest.", "quantifier": "every m > n", "why_tests_cant": "unbounded sizes", "anchors": ["src/roots.rs: generate_combinations, find_roots"]}
{"id": "C38", "title": "One Newton step solves a linear system", "statement": "In exact arithmetic, if no pivot vanishes, the elimination used by the solver returns the solution of the linear system; a singular system with a vanishing line reports infinitely many solutions. Without any assumption on the pivots: whenever the answer is finite it is the solution; a regular system always gets an answer, finite if and only if every leading minor is non-zero; a singular system gives InfiniteSolutions or an answer containing NaN or an infinity.", "quantifier": "every n and every n x (n+1) system", "why_tests_cant": "unbounded", "anchors": ["src/roots.rs: gauss_algorithm"]}
{"id": "C39", "title": "solve and the eq operator agree", "statement": "The deprecated solve(equations, context, vars) returns the same result as evaluating the eq operator on the same equations, variables and context, and neither changes the caller's context.", "quantifier": "every system and context", "why_tests_cant": "all systems", "anchors": ["src/solver.rs: solve", "src/parser.rs: eval_rec"]}
{"id": "C40", "title": "quick_eval is parse followed by eval", "statement": "quick_eval(s, c) is Ok(v) iff s parses and its tree evaluates to v in c; parse and evaluation errors are wrapped unchanged.", "quantifier": "every string and context", "why_tests_cant": "all inputs", "anchors": ["src/lib.rs: quick_eval"]}
{"id": "C41", "title": "Values print to text that parses back", "statement": "For a finite scalar or vector v, parsing and evaluating v.as_string() gives v back exactly; for a matrix it gives v back with the row-major feature and its transpose without.", "quantifier": "every finite f64 and every vector or matrix of them", "why_tests_cant": "2^64 floats and every size", "anchors": ["src/basetypes.rs: Value::as_string", "src/parser.rs: parse_value"]}
{"id": "C42", "title": "Padding", "statement": "center_in_string(s, n) is s with blanks around it, exactly n bytes wide if s has at most n bytes (left and right padding differ by at most one, the larger one on the right) and s itself otherwise.", "quantifier": "every string and width", "why_tests_cant": "all strings", "anchors": ["src/helpers.rs: center_in_string"]}
{"id": "C43", "title": "Unicode output is aligned", "statement": "as_unicode of a non-empty vector or rectangular matrix has one line per row, all lines of equal width; with an ASCII variable name as_unicode_at_var too. A Greek name (multi-byte) breaks the alignment; an empty vector panics.", "quantifier": "every vector and matrix", "why_tests_cant": "all sizes", "anchors": ["src/basetypes.rs: pretty_print"]}
{"id": "C44", "title": "Formatted numbers", "statement": "Numbers are formatted rounded to PREC-2 decimals, never as -0; non-zero numbers that would round to 0 are shown in scientific notation.", "quantifier": "every f64", "why_tests_cant": "2^64 inputs", "anchors": ["src/helpers.rs: round_and_format"]}
{"id": "C45", "title": "LaTeX of result sets", "statement": "Values::as_latex is 'No solutions' for no value, the value itself for one, and a brace-delimited, semicolon-separated list of all values in order for more.", "quantifier": "every list of values", "why_tests_cant": "unbounded", "anchors": ["src/basetypes.rs: Values::as_latex"]}
{"id": "C46", "title": "Generated LaTeX is balanced", "statement": "The LaTeX of every value and result set, and of every AST, variable, function, history step and exported history whose names are harmless (plain names, names of the symbol table, such names with a bracketed subscript, or any name that closes what it opens and ends in no unfinished command), is balanced: curly brackets, \\left and \\right, \\begin{n} and \\end{n} close in the right order, and alignment marks & occur only where LaTeX accepts them, directly inside an environment (lines with an alignment mark: inside the align* of the export; the inline form of a calculation has none, that of a function has one nevertheless).", "quantifier": "every value, AST and history of any size", "why_tests_cant": "unbounded trees and histories", "anchors": ["src/basetypes.rs: Value::latex_print, Values::as_latex, AST::latex_print, Function::as_latex", "src/latex.rs: Step, export_history"]}
{"id": "C47", "title": "Exported history", "statement": "The exported .tex file contains the steps in order, step k tagged and labelled k = 1, 2, ..., between the fixed preamble and end.", "quantifier": "every history", "why_tests_cant": "unbounded", "anchors": ["src/latex.rs: export_history, Step::as_latex_with_tag"]}
{"id": "C48", "title": "eval does not panic without equations", "statement": "For an AST parse produced (or any AST with non-empty rectangular matrices) that contains no equation, in a context of well-formed values and functions, eval never panics and all values it returns are well-formed.", "quantifier": "every AST and context", "why_tests_cant": "all inputs", "anchors": ["src/parser.rs: eval_rec", "src/maths.rs"]}
{"id": "C49", "title": "Rounding", "statement": "Value::round(p) rounds each component; in exact arithmetic the result is the nearest multiple of 10^-p and rounding is idempotent; in binary64 a large finite value can become infinite.", "quantifier": "every value and precision", "why_tests_cant": "all floats", "anchors": ["src/basetypes.rs: Value::round"]}
{"id": "C50", "title": "Evaluation of a literal value is that value", "statement": "AST::from_value(v) evaluates to exactly v in every context.", "quantifier": "every well-formed value", "why_tests_cant": "all values", "anchors": ["src/basetypes.rs: AST::from_value", "src/parser.rs: eval_rec"]}
{"id": "C51", "title": "Functions of numbers", "statement": "sin, cos, tan, arcsin, arccos, arctan, ln, sqrt and abs written f(t) apply the function of that name to every value of t; root(t,u) is t to the power 1/u and (t)^(u) is t to the power u; abs of a vector is the square root of the sum of the squares. Other kinds of arguments give a math error. In binary64, sqrt is correctly rounded (nearest, ties to even) and NaN below zero, abs is exact.", "quantifier": "every argument expression, context and value", "why_tests_cant": "unboundedly many expressions; 2^64 numbers", "anchors": ["src/parser.rs: parse, eval_rec", "src/maths.rs: sin, cos, tan, abs, sqrt, root, ln, arcsin, arccos, arctan, pow"]}
{"id": "C52", "title": "Number literals", "statement": "A text of decimal digits with at most one point (and at least one digit), possibly with blanks, parses to the f64 nearest to the number it shows in positional notation, ties to even, infinity beyond the largest f64; evaluating it gives exactly that number.", "quantifier": "every literal of any length", "why_tests_cant": "unboundedly many digits; rounding errors show up only in rare hard cases", "anchors": ["src/parser.rs: parse, parse_value", "src/parser.rs: str::parse::<f64>"]}
{"id": "C53", "title": "Parentheses and multiplication signs do not matter", "statement": "Two expressions that differ only in redundant parentheses and in whether a product is written with * or by juxtaposition (anywhere, also inside function bodies of the context) have the same result: the same values, the same error, the same panic, or both run for ever.", "quantifier": "every expression, context and choice of places", "why_tests_cant": "every subtree of every expression and every body is a place", "anchors": ["src/basetypes.rs: AST, SimpleOpType", "src/parser.rs: eval, eval_rec"]}
{"id": "C54", "title": "The text of an expression reads back", "statement": "as_string of a parsed expression is again a text of the language, and evaluates in every context to the same result as the original text - provided it contains no plus-minus, index, cross product, absolute value or equation system, matrix literals list rows, nothing is multiplied without a sign after a power, and its numbers are printed exactly (numbers with at most PREC-2 decimals that are not too large are). The text of an equation system drops its unknowns: as printed it reads as the same system without unknowns, and with the unknowns appended to the argument list it reads as the same system, possibly with the sides of equations exchanged.", "quantifier": "every text of the grammar and every context", "why_tests_cant": "as_string is recursive over arbitrary expressions; operator precedence makes wrong output easy to miss", "anchors": ["src/basetypes.rs: AST::as_string", "src/helpers.rs: round_and_format", "src/parser.rs: parse"]}
{"id": "C55", "title": "Accuracy of integrals and derivatives", "statement": "In exact arithmetic, if G is an antiderivative of the integrand with second order remainder at most K(t-s)^2, the numeric integral between a and b differs from G(b)-G(a) by at most 5/2 K (b-a) dx, dx = (b-a)/10^(PREC-3), for either order of the bounds; if f has slope g at s with remainder at most K h^2, the numeric derivative differs from g by at most K h, h = 10^-PREC.", "quantifier": "every expression that evaluates to a number at every point, bounds and context", "why_tests_cant": "all functions and bounds", "anchors": ["src/parser.rs: eval_rec (Integral, Derivative)", "src/maths.rs"]}
{"id": "C56", "title": "Integrals and derivatives are linear", "statement": "In exact arithmetic the numeric derivative and integral of p*e1 + q*e2 are p times that of e1 plus q times that of e2, for all bounds.", "quantifier": "every pair of expressions that evaluate to numbers, p, q, bounds, context", "why_tests_cant": "all functions", "anchors": ["src/parser.rs: eval_rec (Integral, Derivative)"]}
{"id": "C57", "title": "The LaTeX of an expression is read as that expression", "statement": "as_latex of a parsed expression, read with the usual conventions (precedence, brackets, braces, commands), is that expression: same operations, same operands in the same roles - provided its numbers are shown exactly, only single items are inverted, indexed or raised to a power, no second factor of a product without sign starts with a number and nothing after plus-minus starts with a letter (the LaTeX of a+-b is the command \\pmb, that of inv(a+b) lacks brackets, that of 2inv(3) reads 23^{-1}).", "quantifier": "every text of the grammar", "why_tests_cant": "latex_print is recursive over arbitrary expressions; wrong grouping shows up only for particular nestings", "anchors": ["src/basetypes.rs: AST::as_latex, AST::latex_print", "src/helpers.rs: round_and_format", "src/parser.rs: parse"]}
{"id": "C58", "title": "Nothing of an accepted text is lost or misplaced", "statement": "If parse accepts a text (ASCII, or without the calls and brackets of C01), the text (without blanks) spells out the returned tree: the root is the operator outside brackets of lowest priority (the last one for subtraction and multiplication, the first one otherwise), its operands are spelled by the texts on either side, and a text without such an operator is a number, a name, a parenthesised text, a call, a literal or D, I, eq with all its parts in order. Every name, call and number of the tree is a piece of the text. Two things are lost: what follows a second '=' in an equation, and the last character of D, I, eq when a variable in it has unmatched parentheses (eq(x=1,x)y is accepted).", "quantifier": "every text that parse accepts, except those with a call of a non-ASCII name or a non-ASCII bracket", "why_tests_cant": "unboundedly many texts, including malformed ones no test author thinks of", "anchors": ["src/parser.rs: parse, parse_inner, parse_value, get_args"]}
{"id": "C59", "title": "Errors tell the truth, and messages identify errors", "statement": "An error of eval is true of the expression and the context: an unknown variable or function occurs in the expression (or in a function body) and is not defined in the context, a wrong argument count is that of a call in it, a recursive call is in the body of that function, the other errors belong to constructs that are present, mathematical errors have one of a fixed list of texts, and the solver's internal errors never show. An error of parse is true of the text: the value or name it quotes is a piece of the text without blanks that is not a number or breaks the naming rule, and so on for brackets, delimiters and argument counts. Two failing calls of quick_eval with the same get_reason failed with the same error.", "quantifier": "every expression, text and context for which eval, parse or quick_eval fails", "why_tests_cant": "all failing inputs; errors surface from arbitrarily deep calls and contexts", "anchors": ["src/errors.rs: ParserError, EvalError, QuickEvalError, get_reason", "src/parser.rs: parse, eval", "src/lib.rs: quick_eval", "src/maths.rs", "src/roots.rs"]}
{"id": "C60", "title": "Linear systems are solved", "statement": "If the equations of eq(...) are a linear system A x = b in the search variables (as functions: at every point they miss by A x - b) and all leading minors of A are nonzero, the solver finds the solution, in exact arithmetic: every value it returns is the solution or one of the integer start points (j,...,j), -1000 <= j < 1000, whose residual is below 10^-PREC, at least one value is returned, and if no start point other than the solution is that close the answer is exactly the one-element list with the solution. If one equation follows from the equations before it, the answer is the empty list, although there are infinitely many solutions.", "quantifier": "every number of unknowns, every matrix A with nonzero leading minors, every right hand side, every way to write the equations, every context", "why_tests_cant": "unboundedly many systems and sizes; 2000 searches per system", "anchors": ["src/roots.rs: RootFinder::new, RootFinder::find_roots, newton, jacobi_and_gauss, gauss_algorithm, clean_results", "src/solver.rs: solve"]}
{"id": "C61", "title": "A recorded step shows its name, expression and result", "statement": "The line of a calculation in an export is name &= expression = result, with the name left out if the result was not saved and the result left out if it reads the same as the expression; the inline form is the same without the alignment mark. The line of a function is name(inputs) &= expression. The numbered form is the line followed by \\tag and \\label with the decimal text of the number. A line has exactly one alignment mark outside inner environments, or none if only one thing is shown.", "quantifier": "every step: every expression, result set, name, input list and number", "why_tests_cant": "all steps; expressions and results contain alignment marks of their own", "anchors": ["src/latex.rs: Step::as_latex, Step::as_latex_inline, Step::as_latex_with_tag"]}
{"id": "C62", "title": "Greek names are shown as Greek letters", "statement": "as_unicode_at_var shows the LaTeX name of a Greek letter as that letter (mathematical italic, in the order of the Unicode blocks), pi without a backslash as the small letter pi, and every other name unchanged; different ASCII names are shown differently. Exceptions: \\epsilon and \\Gamma are bold, \\pi, \\chi and \\Chi are not converted.", "quantifier": "every name and every value", "why_tests_cant": "all names, including those that almost look like an entry of the table", "anchors": ["src/basetypes.rs: VAR_SYMBOLS, Value::as_unicode_at_var"]}
{"id": "C63", "title": "Scalar arithmetic is correctly rounded", "statement": "If a and b evaluate to the finite numbers x and y, then a+b, a-b, a*b, ab and a/b (y not zero) evaluate to the f64 nearest to the exact result, ties to even, infinity beyond the largest f64; negation is exact. Dividing by zero is not an error: it gives an infinity of the right sign, and NaN for 0/0.", "quantifier": "every pair of expressions that evaluate to numbers, every pair of f64", "why_tests_cant": "2^128 pairs of operands", "anchors": ["src/maths/add_sub.rs: sadd", "src/maths/mult_div.rs: ssmult, ssdiv", "src/maths.rs: add, sub, mult, div, neg"]}
{"id": "C64", "title": "Accuracy of dot products and matrix products", "statement": "Every entry of a dot product, matrix-vector or matrix-matrix product of inner dimension n, computed in f64: if it is finite then so were the numbers it is made of, and it differs from the exact sum of products by at most ((1+u)^n - 1) times the sum of the absolute values of the products plus n (1+u)^n 2^-1075, u = 2^-53; it is finite whenever (1+u)^n times that sum (plus the underflow term) is below the overflow threshold.", "quantifier": "every pair of vectors and matrices of fitting sizes and f64 entries", "why_tests_cant": "all sizes and all f64 entries; cancellation and underflow show up only for particular entries", "anchors": ["src/maths/mult_div.rs: vvmult, mvmult, mmmult"]}
{"id": "C65", "title": "Every result of a session can be shown and read back", "statement": "In every session (any sequence of: starting from the default or empty context, evaluating texts and storing the results, storing values, defining functions from texts, removing variables and functions), every value an evaluation returns is well-formed - vectors non-empty, matrices rectangular - and made of f64 numbers; and if it contains no infinity or NaN, its printed form parses and evaluates, in every context, to the same value again (matrices: transposed unless the row-major feature is on), for single values and for sets of values. Equations must name their unknowns, and the platform's maths functions must return f64 numbers.", "quantifier": "every session of any length and every text", "why_tests_cant": "unboundedly many histories and texts", "anchors": ["src/parser.rs: parse, eval", "src/basetypes.rs: Context, Value::as_string, Values::as_string", "src/roots.rs", "src/maths.rs"]}
{"id": "C66", "title": "Equal parts can be exchanged; names and calls stand for what they mean", "statement": "Evaluation is compositional. Parts of an expression, and of the functions of the context, that have the same outcomes everywhere can be exchanged without changing any outcome (values, error, panic or divergence). A variable can be replaced by its values written down, wherever it is not the variable of an integral, derivative or equation; likewise several single-valued variables at once. A call of a function that itself calls no function has the outcome of the function's body with the values of the arguments filled in for the parameters, once for each combination of argument values, in order.", "quantifier": "every expression, context, replaced part and number of replaced occurrences, under any nesting of operators, lists, integrals, derivatives and equations", "why_tests_cant": "all expressions, contexts and places of replacement", "anchors": ["src/parser.rs: eval, eval_rec", "src/maths/calculus.rs", "src/roots.rs"]}
{"id": "C67", "title": "Values, sets of values and errors as data", "statement": "Every Value is exactly one of scalar, vector, matrix; get_scalar/get_vector/get_matrix return the content of that kind and None otherwise, and is_scalar/is_vector/is_matrix agree with them; value! builds the value with the given rows; Values::from_vec/to_vec/len/get give back the list; a Variable put into a context evaluates to its values; is_inf_or_nan is true exactly if some number is not finite; == on values is entrywise equality of real numbers for finite entries (0 equals -0), and a value differs from itself exactly if it contains NaN; converting an error into QuickEvalError or MathLibError keeps its message and identity.", "quantifier": "every value, set of values, context and error", "why_tests_cant": "all values and all f64 entries", "anchors": ["src/basetypes.rs: Value, Values, Variable::new, value!, AST::from_variable_name", "src/errors.rs: MathLibError, QuickEvalError, LatexError, From"]}
{"id": "C68", "title": "The choice of names does not matter", "statement": "Giving all variables and all functions new names (different ones for different ones) in an expression and its context gives the same outcome, with the new names in error messages. Local names can be changed on their own: the parameters and other local names of functions, the variable of an integral or derivative, the unknowns of equations - the values of every expression stay the same, provided the new name is not used in the expression and the name is not one that some function takes from its caller (functions see the variables of their callers).", "quantifier": "every expression, context, renaming and fresh name", "why_tests_cant": "all expressions, contexts and renamings", "anchors": ["src/parser.rs: eval, eval_rec", "src/maths/calculus.rs", "src/roots.rs", "src/basetypes.rs: Context, Function"]}
{"id": "C69", "title": "How eq(...) searches", "statement": "For every choice of as many equations as unknowns, in lexicographic order, Newton's method runs from the 2000 starting points -1000..999 (all unknowns equal), at most 1000 steps each: a point where the chosen equations miss by less than 10^-PREC in Euclidean length is accepted if the other equations do too (else the starting point is passed over); otherwise the step solves the linear equations of the difference quotients with step 10^-PREC (in exact arithmetic a step to a finite point is exactly x - J^-1 r, J being the invertible matrix of the difference quotients and r the values at x); a step to a point that is not finite passes the starting point over, and linear equations without a unique solution end the search for this choice. eq returns a list if and only if this search has one: the empty list exactly if every choice finds nothing; otherwise the answer is the selection (rounded duplicates dropped, at most ten) among the points found by the first choice that finds any.", "quantifier": "every system of equations, context and list of distinct unknowns, any number of equations and unknowns", "why_tests_cant": "the search takes thousands of steps with arbitrary expressions; all systems and contexts", "anchors": ["src/roots.rs: RootFinder::find_roots, newton, jacobi_and_gauss, gauss_algorithm, generate_combinations", "src/solver.rs: solve", "src/parser.rs: eval_rec (Equation)"]}
{"id": "C70", "title": "Integrals and derivatives of several values, vectors and matrices", "statement": "D(f,x,p) with a point p of several values is the list of the derivatives at each value, I(f,x,a,b) with bounds of several values the list of the integrals over each pair (lower bound first). For bounds a < b the integral is, for each i, the sum (public addition, from the left) of the i-th values of the integrand at those sample points where it has one, times the width; there are as many answers as the largest number of values. The integral of a vector or matrix literal whose entries are numbers at the sample points equals, bit for bit, the vector or matrix of the integrals of its entries. The derivative of a vector or matrix literal has the entries (f(p+h) - f(p)) times (1/h), which in exact arithmetic is the vector of the derivatives.", "quantifier": "every expression, context, variable name, point and bounds; any number of values, entries and rows; any number type", "why_tests_cant": "expressions, contexts and numbers of values are unbounded, and each integral takes 10^5 samples", "anchors": ["src/maths/calculus.rs: calculate_integral, calculate_derivative", "src/parser.rs: eval_rec (Integral, Derivative)"]}
{"id": "C71", "title": "Kinds can be checked beforehand", "statement": "There is a check of an expression that looks only at the expression, the bodies of the functions it calls and the kinds (number, vector of n components, r x c matrix) and numbers of values of the variables; an expression that passes it is evaluated without error or panic and in finite time, to exactly the predicted number of values, all of the predicted kind, whatever the values of the variables are. Operators applied to kinds that are not in the documented table are an error. (Integrals, eq, inv, indexing and matrix powers depend on the values and do not pass.)", "quantifier": "every expression, context, and replacement of values by others of the same kinds", "why_tests_cant": "all values of the variables, unbounded expressions and call depth", "anchors": ["src/parser.rs: eval_rec", "src/maths.rs: add, sub, mult, div, cross, pow, det, neg, abs"]}
{"id": "C72", "title": "eq answers every system of equations about numbers", "statement": "If the unknowns are distinct and not defined, there are at least as many equations as unknowns, and every equation compares two numbers wherever the unknowns are (for instance because it passes the check of C71), then eq(...) returns, without error or panic, a list of values (possibly empty), each a number if there is one unknown and otherwise a vector with one component for each unknown.", "quantifier": "every system of equations, also with overflows, NaN and singular Jacobians on the way", "why_tests_cant": "2000 starting points, 1000 steps each, any functions", "anchors": ["src/roots.rs: RootFinder::run, newton, jacobi_and_gauss, gauss_algorithm, clean_results", "src/solver.rs: solve"]}
{"id": "C73", "title": "In exact arithmetic expressions obey linear algebra", "statement": "If the numbers were elements of an ordered field without rounding, every expression would evaluate to exactly what it denotes in linear algebra: numbers, vector and matrix literals, variables, brackets, sums, differences, signs, all products (scaling, dot, matrix-vector, matrix-matrix, cross), quotients by non-zero numbers, components, matrix powers, determinants, inverses (leading minors non-zero), absolute values, elementary functions, and calls of user functions, nested in any way. Hence the laws of algebra hold between expressions: sums commute and associate, products associate and distribute, det(a*b) = det(a)*det(b), inv(a)*(a*v) = v, a^(j+k) = a^j*a^k, u#v = -(v#u) and u#v is orthogonal to u and v. So every deviation a user sees is rounding of f64 (where associativity does fail).", "quantifier": "every expression, field, context, size of vectors and matrices and depth of calls", "why_tests_cant": "unboundedly many expressions, sizes and values; a test cannot separate rounding from wrong formulas", "anchors": ["src/parser.rs: eval, eval_rec", "src/maths.rs", "src/maths/mult_div.rs", "src/maths/add_sub.rs"]}
{"id": "C74", "title": "RootFinder used directly", "statement": "RootFinder::new(expressions, context, unknowns) reports, in this order: NothingToDoEq if there is no expression or one of them is not an operation (a number, vector, matrix, list, variable or call); SearchVarsInVars if an unknown is already a variable; UnderdeterminedSystem if there are more unknowns than expressions; the error of evaluating the first expression with every unknown set to 8.21785; VectorInEq or MatrixInEq if its first value is a vector or matrix. It succeeds exactly when none of this applies, and then keeps the expressions, the unknowns and the caller's context unchanged, and every choice of as many expressions as unknowns in lexicographic order. Every root find_roots returns has finite coordinates at which the chosen expressions, and the remaining ones, have Euclidean length below 10^-PREC. eq(l=r, ...) is RootFinder applied to the differences l-r.", "quantifier": "every list of expressions, context and list of unknowns", "why_tests_cant": "arbitrary expressions and contexts; error precedence", "anchors": ["src/roots.rs: RootFinder::new, RootFinder::find_roots", "src/solver.rs: solve"]}
{"id": "C75", "title": "Accuracy of arithmetic expressions of any size", "statement": "An expression built from numbers and variables holding one number with +, -, *, juxtaposition, |.|, brackets, signs and division by a number or variable that is not 0 evaluates to exactly one double x. If x is finite, its distance to the exact real value of the expression is at most (1+2^-53)^k * M' - M, where M is the value of the expression with every term made positive, M' is M with 2^-1075 added at each product and quotient, and k is the number of roundings in a row. x is finite whenever the same bound, taken at every sub-expression, stays below the overflow threshold of f64. The bound depends on the expression and the values of its variables only.", "quantifier": "every such expression, of any size and nesting, every context and all doubles", "why_tests_cant": "unboundedly many expressions and 2^64 values per variable; the exact value is not computable in f64", "anchors": ["src/parser.rs: eval, eval_rec", "src/maths/add_sub.rs", "src/maths/mult_div.rs", "src/maths.rs: neg, abs"]}
{"id": "C76", "title": "What eq returns nearly solves the real equations", "statement": "Every solution returned by eq for equations whose sides are arithmetic expressions (as above) in the unknowns and in variables holding numbers consists of finite doubles, one per unknown, and at that point the two sides of every equation, evaluated over the real numbers without rounding, differ by at most (1+2^-50)/10^PREC plus the rounding bound of the preceding property. In particular for eq(a*x=b,x) with a not 0 every answer is at most that far, divided by |a|, from the real number b/a.", "quantifier": "every session, every system of such equations, every answer", "why_tests_cant": "the real solution is not representable; unboundedly many systems", "anchors": ["src/solver.rs: solve", "src/roots.rs: RootFinder", "src/parser.rs: eval"]}
{"id": "C77", "title": "Derivatives of polynomial expressions are close to the real derivative", "statement": "For an expression built from x, numbers and variables holding numbers with +, -, *, juxtaposition, brackets, signs and division by numbers and by variables other than x, the real function it denotes is differentiable everywhere, and D(expression, x, p) at a finite double s returns one double r. If r is finite, its distance to the real derivative g at s is at most: the rounding bound (C75) of evaluating (f(s')-f(s))/h, plus (|g|*d + K*(h+d)^2)/h, where h is the double 10^-PREC, s' the double nearest to s+h, d = 2^-53*|s+h|, and K bounds half the second derivative between s and s', computed by recursion over the expression. If |.| occurs as well, r is still that close to the difference quotient of the real function between s and s'.", "quantifier": "every such expression of any size, every context, every double s", "why_tests_cant": "unboundedly many expressions; the true derivative is a limit over the reals", "anchors": ["src/maths/calculus.rs: calculate_derivative", "src/parser.rs: eval, eval_rec"]}
{"id": "C78", "title": "Integrals of polynomial expressions are close to the real integral", "statement": "For a polynomial expression in x (as in the preceding property) with real antiderivative G, and finite doubles a < b such that a strip dx = (b-a)/10^(PREC-3) is wider than the rounding of its ends (2^-53*(max(|a|,|b|)+dx) < dx) and nothing overflows, I(expression, x, a, b) terminates and returns one double r, the same for exchanged bounds. If r is finite, then |r - (G(b)-G(a))| is at most the rounding bound (C75) of summing the samples and multiplying by dx, plus, for each of the n strips, the effect of sampling left of the strip and of the rounded ends (bounded by the size and slope of the expression on a slightly larger interval), plus one strip for overshooting b. The number n of strips satisfies n*(dx-d) <= b-a+dx+d for d = 2^-53*(max(|a|,|b|)+dx).", "quantifier": "every such expression of any size, every context, all bounds", "why_tests_cant": "100000 strips per integral, unboundedly many expressions and bounds; the true integral is a limit", "anchors": ["src/maths/calculus.rs: calculate_integral", "src/parser.rs: eval, eval_rec"]}
{"id": "C79", "title": "pi and e are the nearest doubles", "statement": "In a new default context the texts pi and e evaluate to the doubles nearest to the real numbers pi and e (both less than 2^-52 away); every other name is an unknown variable there.", "quantifier": "all doubles (none is nearer), all other names", "why_tests_cant": "pi and e are real numbers, not representable; nearness is against every double", "anchors": ["src/basetypes.rs: Context::default", "src/parser.rs: eval"]}
{"id": "C80", "title": "Errors propagate by the usual rules", "statement": "Take an expression built from numbers, names, vector and matrix literals, +, -, signs, all products (of numbers, vectors and matrices), division by a number, cross product, |.|, sqrt, det, components of vectors, brackets and calls of defined functions, where each name is known up to a given error. Then evaluation returns one value of the expected shape, and each component differs from its exact real value by at most the bound obtained by the textbook rules: errors add under + and -, d1*|v2|+d2*|v1|+d1*d2 for products, (d1*|v2|+d2*|v1|)/(|v2|*(|v2|-d2)) for quotients if 0 is out of reach, d/sqrt(v) for roots, and every operation adds one rounding (2^-53 relative plus 2^-1075), provided that nothing exceeds the largest double. sin, cos, powers and the other functions of the platform are covered relative to a given accuracy of the platform; for sin and cos errors of the argument are not magnified.", "quantifier": "every such expression of any size, all function definitions, all contexts within the given errors", "why_tests_cant": "unboundedly many expressions and contexts; exact real values", "anchors": ["src/parser.rs: eval, eval_rec", "src/maths.rs, src/maths/*.rs"]}
{"id": "C81", "title": "Quadratic equations are solved completely", "statement": "In exact arithmetic, for an equation in one unknown: if its two sides differ by a*x^2+b*x+d, with two solutions between -1000 and 999, a discriminant of at least 1, solutions at least 104*10^-PREC apart and |a| <= 10^200, then eq returns at most four values, each within 2*10^-PREC of a solution, and one near each of the two solutions. An equation that is nowhere within 10^-PREC of being satisfied gives the empty list. More generally, if the Newton step brings the search closer to a solution by a fixed factor in some region around it that contains one of the starting numbers -1000..999, and the factor to the power 999 is small enough, a point of that region is found and is represented in the answer up to 100*10^-PREC, unless ten values are returned.", "quantifier": "all coefficients and solutions, all ordered Archimedean fields, all forms of the two sides, all contexts", "why_tests_cant": "infinitely many equations; up to 1000 iterations from 2000 starting points", "anchors": ["src/roots.rs: RootFinder::find_roots, newton, jacobi_and_gauss, gauss_algorithm, clean_results", "src/solver.rs: solve"]}
{"id": "C82", "title": "Laws of algebra that hold bit for bit", "statement": "Although every operation rounds, on doubles: a+b and b+a have the same values (in another order if there are several); so have a*b and b*a unless two matrices are multiplied; a-b equals a+(-b), -(-a), 1*a, a*1 and a/1 equal a; a+a equals 2*a for an expression with one value; a-a is 0 and a/a is 1 for a finite (nonzero) number; (-a)*b and a*(-b) are -(a*b), likewise for quotients; |-a| = |a| and a#b = -(b#a) up to the sign of zeros; sqrt(a*a) = |a| for 2^-500 <= |a| <= 2^500. Associativity, distributivity and (a/b)*b = a do fail.", "quantifier": "all expressions a and b, all contexts, all doubles including infinities and NaN, vectors and matrices of all sizes", "why_tests_cant": "2^128 pairs of doubles for each law; all sizes", "anchors": ["src/maths.rs: add, sub, mult, div, neg, abs, sqrt", "src/maths/add_sub.rs, src/maths/mult_div.rs, src/maths/cross_pow.rs", "src/parser.rs: eval"]}
{"id": "C83", "title": "Where errors and panics of eq(...) come from", "statement": "If eq(...) returns an error, it is one of its own refusals (no equation; an unknown that is already defined; fewer equations than unknowns; a first equation between vectors or matrices), or at some point one of the equations has exactly this error, or is not about a number there (then the error says that a scalar cannot be subtracted from a vector or matrix). If it panics, then at some point an equation panics, has no value, or has a vector or matrix as first value.", "quantifier": "every system of equations, context and list of distinct unknowns", "why_tests_cant": "all systems; thousands of evaluations in each search", "anchors": ["src/roots.rs: RootFinder::new, newton, jacobi_and_gauss, gauss_algorithm, clean_results", "src/solver.rs: solve", "src/maths/calculus.rs: calculate_derivative_newton"]}
{"id": "C84", "title": "Rounding in binary64", "statement": "Value::round(p) with at most 22 decimals: for |x|*10^p below 10^15 the result is the double nearest to a decimal with p places, at most half a unit of the last place away (up to rounding); a double that is already nearest to such a decimal is returned unchanged, so rounding twice is rounding once. round(0) gives the nearest whole number, halves away from zero, for every finite double. Rounding commutes with changing the sign and never reverses the order of two doubles, for all doubles. Vectors and matrices are rounded component by component. For |x|*10^p of about 4*10^15 rounding is not idempotent: 35251562639720.836 -> ...0.84 -> ...0.85.", "quantifier": "every double and number of decimals up to 22", "why_tests_cant": "all doubles", "anchors": ["src/basetypes.rs: Value::round"]}
{"id": "C85", "title": "Every panic of eval comes from an equation that is not about a number", "statement": "Let b be an expression as parse makes it, in a context of well-formed values and functions, in which every eq(...) has at least one unknown and the unknowns of each are different. If eval panics, then some eq(...) occurs in b or in the body of a function, and in some context (with the same functions) the difference of the sides of one of its equations has no value or begins with a vector or matrix. All values eval returns are well-formed.", "quantifier": "every expression (equations nested in functions, integrals, derivatives and other equations included) and context", "why_tests_cant": "all inputs", "anchors": ["src/parser.rs: eval, eval_rec", "src/roots.rs: RootFinder::find_roots", "src/solver.rs: solve", "src/maths.rs"]}
{"id": "C86", "title": "eq without unknowns tests its equations", "statement": "eq(l1=r1, l2=r2, ...) without any unknown (which parse accepts) looks at the first values of the differences l-r. If all are numbers, the answer is one value, the vector without components, when their Euclidean length is below 10^-PREC, and no value otherwise; these are the only answers. An error or panic of a later equation is the outcome, and a later equation that is not about numbers makes eval panic (for the first equation see C35). The vector without components is not usable: taking a component of it panics, so the text eq(1=1,2=2)?0 is accepted by parse and makes eval panic.", "quantifier": "every list of equations and context", "why_tests_cant": "all inputs; 2000 identical searches in each case", "anchors": ["src/roots.rs: RootFinder::new, RootFinder::find_roots, newton, clean_results", "src/solver.rs: solve", "src/maths.rs: get"]}
{"id": "C87", "title": "next to an answer of eq there is a real root", "statement": "Let a be an answer of the text eq(l=r, x), where l and r are polynomials in x (numbers, variables holding a number, + - * negation, division by a known number). Then the difference of the two sides over the real numbers is at most D at a, where D is the sum of 10^-PREC and the rounding-error estimate of C76. If within D/m of a the slope of that difference is everywhere at least m, or everywhere at most -m, for some m > 0, then within D/m of a there is one and only one real root of l = r. The slope is given by the usual rules (sum, product, quotient by a constant).", "quantifier": "every text, session context, unknown, answer and m > 0", "why_tests_cant": "all real numbers near the answer", "anchors": ["src/roots.rs: RootFinder::find_roots, newton", "src/solver.rs: solve", "src/basetypes.rs: AST::Equation"]}
{"id": "C88", "title": "eq with one unknown finds whole-number solutions", "statement": "For one unknown in binary64, let j be a whole number from -1000 to 999 that satisfies the equations (the first difference is below 10^-PREC in absolute value, and the others have a Euclidean length below 10^-PREC). If eval succeeds, there is an answer, and some value equal to j after rounding to PREC-2 decimals is among the answers unless there are already ten answers, none of them larger in absolute value. With equations that hold at j without any error, and fewer than ten answers, an answer rounding like j is among them; for a text in a session it is a double within 0.6 * 10^-(PREC-2) of j. If the equations are numeric for every value of the unknown and the unknown is not defined, eval succeeds and has an answer. (So all 2000 start values are tried: the elimination of a single row never reports infinitely many solutions.)", "quantifier": "every list of equations, context and whole number in the range", "why_tests_cant": "2000 starts, searches of up to 1000 steps each", "anchors": ["src/roots.rs: RootFinder::find_roots, newton, clean_results", "src/helpers.rs: round", "src/solver.rs: solve"]}
{"id": "C89", "title": "equations without approximate real solutions have no answers", "statement": "Let a text of a session read as eq(l1=r1, ..., x1, ..., xn) with sides built from numbers, variables holding a number and the unknowns by + - * negation, brackets, absolute value and division by a known number. If at every point with binary64 coordinates some equation differs over the real numbers by more than 10^-PREC plus the rounding-error estimate of C76, then eval returns no values. In particular eq(x*x+p=0, x) returns no values for every binary64 number p >= 2*10^-PREC, and eq(x=p, x=q, x) returns no values for all binary64 numbers p, q with |p-q| >= 3*10^-PREC + 2^-50*(|p|+|q|): the calls succeed, with an empty list, whatever variables the session defined (other than x).", "quantifier": "every text, session context and number p, q", "why_tests_cant": "all binary64 points; all 2000 starts", "anchors": ["src/roots.rs: RootFinder::find_roots, newton", "src/solver.rs: solve"]}
