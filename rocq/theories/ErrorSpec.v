(** * ErrorSpec: what an evaluation error says (specification for C59). *)
From Coq Require Import List NArith ZArith String.
From Verif Require Import Base F64 Num Types GrammarSpec ParserSpec SpellSpec.
Import ListNotations.
Local Open Scope string_scope.
Local Open Scope list_scope.

(** The texts of the errors of the mathematical operations. *)
Definition math_messages : list string :=
  [ "Vectors have different dimensions!"; "Matrices have different dimensions!";
    "Vector and matrix have incompatible dimensions!"; "Matrices have incompatible dimensions!";
    "Vectors have incompatible dimensions!"; "Can't compute cross product with dim(V) > 3!";
    "Exponent must be an integer!"; "Can't calculate determinant of a non-square matrix!";
    "Infinite solutions"; "Can't calculate inverse of a non-square matrix!";
    "Can't calculate inverse of a matrix with determinant 0!";
    "Can't add scalar to vector!"; "Can't add vector to scalar!"; "Can't add scalar to matrix!";
    "Can't add matrix to scalar!"; "Can't add matrix to vector!"; "Can't add vector to matrix!";
    "Can't subtract scalar from vector!"; "Can't subtract vector from scalar!";
    "Can't subtract scalar from matrix!"; "Can't subtract matrix from scalar!";
    "Can't subtract matrix from vector!"; "Can't subtract vector from matrix!";
    "Vector has to be on the right side of linear transformation!";
    "Can't divide scalar by vector!"; "Can't divide scalar by matrix!"; "Can't divide matrix by vector!";
    "Can't divide vector by matrix!"; "Can't divide matrix by matrix!";
    "Cross product can only be computed between two vectors!"; "Index must be a positive Integer!";
    "Index out of bounds for vector!"; "Can only index vector with scalar!";
    "Can only raise scalar or matrix to the power of scalar!";
    "Can't take abs of matrix!";
    "Can't take sin of vector!"; "Can't take sin of matrix!"; "Can't take cos of vector!"; "Can't take cos of matrix!"; "Can't take tan of vector!"; "Can't take tan of matrix!";
    "Can't take arcsin of vector!"; "Can't take arcsin of matrxi!"; "Can't take arccos of vector!"; "Can't take arccos of matrix!"; "Can't take arctan of vector!";
    "Can't take arctan of matrix!"; "Can't take sqrt of vector!"; "Can't take sqrt of matrix!"; "Can't take ln of vector!"; "Can't take ln of matrix!"; "Can only take root of a scalar!";
    "Can't calculate determinant of a scalar!"; "Can't calculate determinant of a vector!";
    "Can't calculate inverse of a scalar!"; "Can't calculate inverse of a vector!";
    "Only scalar bounds are allowed!"; "Only scalar values are allowed!";
    "Amount of solutions for f(x) and f(x+h) are different!" ].

Section Spec.
Context {N : Num} {En : Env}.

(** [x] is a part of the expression [b], or of the body of a function of the
    context. *)
Definition mentioned (x b : AST N) (c : Ctx N) : Prop :=
  node x b \/ exists fn, In fn (funs c) /\ node x (fun_ast fn).

(** The errors evaluating [b] in [c] may end with, and what each says about
    the expression and the context. *)
Definition truthful (b : AST N) (c : Ctx N) (e : EvalError) : Prop :=
  match e with
  | NoVariable n => mentioned (AVar n) b c /\ forall v, In v (vars c) -> var_name v <> n
  | NoFunction n => (exists args, mentioned (AFun n args) b c) /\ forall fn, In fn (funs c) -> fun_name fn <> n
  | WrongNumberOfArgs want got =>
      exists fn args, In fn (funs c) /\ mentioned (AFun (fun_name fn) args) b c /\
        want = List.length (fun_inputs fn) /\ got = List.length args /\ want <> got
  | RecursiveFunction =>
      (exists fn args, In fn (funs c) /\ node (AFun (fun_name fn) args) (fun_ast fn)) \/
      exists args, mentioned (AFun [] args) b c
  | NonScalarInVector => exists l, mentioned (AVector l) b c
  | NonScalarInMatrix => exists l, mentioned (AMatrix l) b c
  | VectorInEq | MatrixInEq | NothingToDoEq | UnderdeterminedSystem => exists eqs sv, mentioned (AEq eqs sv) b c
  | SearchVarsInVars => exists eqs sv, mentioned (AEq eqs sv) b c /\ sv <> []
  | MathError s => In s math_messages
  | InfiniteSolutions | NaNOrInf | ExpressionCheckFailed => False
  end.

(** The errors reading [s] may end with, and what each says about the text
    (its blanks left out). *)
Definition quotes (s : str) (e : ParserError) : Prop :=
  match e with
  | ParseValue t => piece t (no_blanks s) /\ t <> [] /\ (nparse t = None \/ In (ch "[") t)
  | InvalidVariableName t => piece t (no_blanks s) /\ t <> [] /\ ~ naming_rule t
  | InvalidFunctionName t => piece (t ++ [ch "("]) (no_blanks s) /\ t <> [] /\ ~ naming_rule t
  | PWrongNumberOfArgs w =>
      (w = lit "root" /\ piece (lit "root(") (no_blanks s)) \/ (w = lit "derivative" /\ piece (lit "D(") (no_blanks s)) \/
      (w = lit "integral" /\ piece (lit "I(") (no_blanks s))
  | EmptyVec => piece (lit "[]") (no_blanks s) \/ piece (lit "[,") (no_blanks s)
  | MissingBracket => exists t, piece t (no_blanks s) /\ In (ch "[") t /\ ~ exists u, t = [ch "["] ++ u ++ [ch "]"]
  | NotRectMatrix => exists t, piece ([ch "["] ++ t ++ [ch "]"]) (no_blanks s)
  | UnmatchedOpenDelimiter => exists t, piece t (no_blanks s) /\ count (ch ")") t < count (ch "(") t
  | UnmatchedCloseDelimiter => exists t, piece t (no_blanks s) /\ count (ch "(") t < count (ch ")") t
  | EmptyExpr => True
  | EquationWithoutEqual | TooManyEquals | NoEquation => False
  end.
End Spec.
