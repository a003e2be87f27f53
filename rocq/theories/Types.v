(** * Types: values, variables, functions, contexts, ASTs and errors
    (/repo/src/basetypes.rs, /repo/src/errors.rs). *)
From Coq Require Import List NArith ZArith Bool Ascii String.
From Verif Require Import Base Num.
Import ListNotations.

(** errors.rs:54-69 [ParserError] *)
Inductive ParserError : Type :=
| ParseValue (s : str) | MissingBracket | EmptyVec | NotRectMatrix | EmptyExpr
| UnmatchedOpenDelimiter | UnmatchedCloseDelimiter
| EquationWithoutEqual | TooManyEquals | NoEquation
| InvalidVariableName (s : str) | InvalidFunctionName (s : str)
| PWrongNumberOfArgs (s : str).

(** errors.rs:97-114 [EvalError] *)
Inductive EvalError : Type :=
| NonScalarInVector | NonScalarInMatrix | RecursiveFunction
| VectorInEq | MatrixInEq | NothingToDoEq | UnderdeterminedSystem
| InfiniteSolutions | NaNOrInf | ExpressionCheckFailed | SearchVarsInVars
| NoVariable (s : str) | NoFunction (s : str)
| WrongNumberOfArgs (expected given : nat)
| MathError (s : string).

(** errors.rs:150-155 [QuickEvalError] *)
Inductive QuickEvalError : Type :=
| DuplicateVars | QParserError (e : ParserError) | QEvalError (e : EvalError).

(** basetypes.rs:877-926 [SimpleOpType] *)
Inductive SimpleOp : Type :=
| OAdd | OSub | OAddSub | ONeg | OMult | ODiv | OCross | OHiddenMult | OPow | OGet
| OSin | OCos | OTan | OAbs | OSqrt | ORoot | OLn
| OArcsin | OArccos | OArctan | ODet | OInv | OParenths.

Definition op_eqb (a b : SimpleOp) : bool :=
  match a, b with
  | OAdd, OAdd | OSub, OSub | OAddSub, OAddSub | ONeg, ONeg | OMult, OMult
  | ODiv, ODiv | OCross, OCross | OHiddenMult, OHiddenMult | OPow, OPow
  | OGet, OGet | OSin, OSin | OCos, OCos | OTan, OTan | OAbs, OAbs
  | OSqrt, OSqrt | ORoot, ORoot | OLn, OLn | OArcsin, OArcsin
  | OArccos, OArccos | OArctan, OArctan | ODet, ODet | OInv, OInv
  | OParenths, OParenths => true
  | _, _ => false
  end.

Section Types.
Context {N : Num}.

(** basetypes.rs:203-207 [Value].  [Values] (basetypes.rs:546) is a newtype
    around [Vec<Value>] and is modelled by [list Value]. *)
Inductive Value : Type :=
| Matrix (m : list (list T))
| Vector (v : list T)
| Scalar (s : T).

(** basetypes.rs:29-32 [Variable] *)
Record MVar : Type := mkVar { var_name : str; var_values : list Value }.

(** basetypes.rs:614-625 [AST], with the [Operation] and [AdvancedOperation]
    enums (basetypes.rs:948-977) inlined:
    [AOp op l r] is [AST::Operation(SimpleOperation{..})], [AInt], [ADer] and
    [AEq] are [AST::Operation(AdvancedOperation(..))]. *)
Inductive AST : Type :=
| AScalar (s : T)
| AVector (v : list AST)
| AMatrix (m : list (list AST))
| AList (l : list AST)
| AVar (s : str)
| AFun (name : str) (inputs : list AST)
| AOp (op : SimpleOp) (left right : AST)
| AInt (expr : AST) (in_terms_of : str) (lower_bound upper_bound : AST)
| ADer (expr : AST) (in_terms_of : str) (at_ : AST)
| AEq (equations : list (AST * AST)) (search_vars : list str).

(** basetypes.rs:62-66 [Function] *)
Record MFun : Type := mkFun { fun_name : str; fun_ast : AST; fun_inputs : list str }.

(** basetypes.rs:91-94 [Context] *)
Record Ctx : Type := mkCtx { vars : list MVar; funs : list MFun }.

(** basetypes.rs:109-111 [Context::empty] *)
Definition ctx_empty : Ctx := mkCtx [] [].
(** basetypes.rs:105-119 [Context::new], [from_vars], [from_funs] *)
Definition ctx_new (v : list MVar) (f : list MFun) : Ctx := mkCtx v f.
Definition ctx_from_vars (v : list MVar) : Ctx := mkCtx v [].
Definition ctx_from_funs (f : list MFun) : Ctx := mkCtx [] f.
(** basetypes.rs:98-103 [Context::default] *)
Definition ctx_default : Ctx :=
  ctx_from_vars [ mkVar (lit "pi") [Scalar npi]; mkVar (lit "e") [Scalar neul] ].

(** basetypes.rs:121-128 [Context::add_var] *)
Definition add_var (c : Ctx) (v : MVar) : Ctx :=
  mkCtx (filter (fun w => negb (str_eqb (var_name w) (var_name v))) (vars c) ++ [v])
        (funs c).
(** basetypes.rs:130-137 [Context::add_fun] *)
Definition add_fun (c : Ctx) (f : MFun) : Ctx :=
  mkCtx (vars c)
        (filter (fun g => negb (str_eqb (fun_name g) (fun_name f))) (funs c) ++ [f]).
(** basetypes.rs:139-144 [Context::remove_var] *)
Definition remove_var (c : Ctx) (n : str) : Ctx :=
  mkCtx (filter (fun w => negb (str_eqb (var_name w) n)) (vars c)) (funs c).
(** basetypes.rs:146-151 [Context::remove_fun] *)
Definition remove_fun (c : Ctx) (n : str) : Ctx :=
  mkCtx (vars c) (filter (fun g => negb (str_eqb (fun_name g) n)) (funs c)).

(** basetypes.rs:212-236 [Value::get_scalar], [get_vector], [get_matrix] *)
Definition get_scalar (v : Value) : option T := match v with Scalar s => Some s | _ => None end.
Definition get_vector (v : Value) : option (list T) := match v with Vector s => Some s | _ => None end.
Definition get_matrix (v : Value) : option (list (list T)) := match v with Matrix s => Some s | _ => None end.

(** basetypes.rs:238-257 [is_scalar], [is_vector], [is_matrix] *)
Definition is_scalar (v : Value) : bool := match v with Scalar _ => true | _ => false end.
Definition is_vector (v : Value) : bool := match v with Vector _ => true | _ => false end.
Definition is_matrix (v : Value) : bool := match v with Matrix _ => true | _ => false end.

(** [(a*10f64.powi(prec as i32)).round()/10f64.powi(prec as i32)]
    (basetypes.rs:261).  [prec as i32] wraps in Rust for [prec >= 2^31]; the
    model takes the exponent after the cast. *)
Definition round_num (prec : Z) (a : T) : T :=
  ndiv (nround (nmul a (pow10 prec))) (pow10 prec).

(** basetypes.rs:259-281 [Value::round] *)
Definition value_round (prec : Z) (v : Value) : Value :=
  match v with
  | Scalar a => Scalar (round_num prec a)
  | Vector l => Vector (map (round_num prec) l)
  | Matrix m => Matrix (map (map (round_num prec)) m)
  end.

(** basetypes.rs:566-569 [Values::round] *)
Definition values_round (prec : Z) (vs : list Value) : list Value := map (value_round prec) vs.

(** basetypes.rs:283-304 [Value::is_inf_or_nan] *)
Definition is_inf_or_nan (v : Value) : bool :=
  let bad x := (nis_inf x || nis_nan x)%bool in
  match v with
  | Scalar s => bad s
  | Vector l => existsb bad l
  | Matrix m => existsb (existsb bad) m
  end.

(** [#\[derive(PartialEq)\]] on [Value] (basetypes.rs:201): float equality on
    the components, so [NaN] differs from itself and [0. == -0.]. *)
Fixpoint list_eqb {A : Type} (eqb : A -> A -> bool) (a b : list A) : bool :=
  match a, b with
  | [], [] => true
  | x :: a', y :: b' => (eqb x y && list_eqb eqb a' b')%bool
  | _, _ => false
  end.
Definition value_eqb (a b : Value) : bool :=
  match a, b with
  | Scalar x, Scalar y => neqb x y
  | Vector x, Vector y => list_eqb neqb x y
  | Matrix x, Matrix y => list_eqb (list_eqb neqb) x y
  | _, _ => false
  end.

(** basetypes.rs:629-652 [AST::from_value] *)
Definition ast_from_value (v : Value) : AST :=
  match v with
  | Scalar s => AScalar s
  | Vector l => AVector (map AScalar l)
  | Matrix m => AMatrix (map (map AScalar) m)
  end.

End Types.

(** The number instance is determined by the argument. *)
Arguments Value : clear implicits.
Arguments MVar : clear implicits.
Arguments AST : clear implicits.
Arguments MFun : clear implicits.
Arguments Ctx : clear implicits.
