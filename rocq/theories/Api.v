(** * Api: constructors, accessors and conversions of the public types
    (/repo/src/basetypes.rs, /repo/src/errors.rs). *)
From Coq Require Import List NArith ZArith Bool Ascii String.
From Verif Require Import Base Num Types Print.
Import ListNotations.
Local Open Scope string_scope.
Local Open Scope list_scope.

Section Api.
Context {N : Num}.

(** basetypes.rs:166-192 the [value!] macro.  The argument is the list of the
    rows separated by [;], each a list of expressions separated by [,], already
    converted by [as f64]; the first matching arm is taken. *)
Definition value_macro (rows : list (list T)) : Value N :=
  match rows with
  | [[x]] => Scalar x
  | [r] => Vector r
  | rows => Matrix rows
  end.

(** basetypes.rs:550-564 [Values::from_vec], [to_vec], [get], [len] *)
Definition values_from_vec (l : list (Value N)) : list (Value N) := l.
Definition values_to_vec (l : list (Value N)) : list (Value N) := l.
Definition values_get (l : list (Value N)) (i : nat) : option (Value N) := nth_error l i.
Definition values_len (l : list (Value N)) : nat := List.length l.
(** basetypes.rs:527-537 [Into<Values>] for [Value] and [Vec<Value>] *)
Definition values_of_value (v : Value N) : list (Value N) := values_from_vec [v].
(** basetypes.rs:35-42 [Variable::new], [Variable::new_from_values] *)
Definition variable_new (n : str) (vs : list (Value N)) : MVar N := mkVar n vs.
Definition variable_new_from_values (n : str) (vs : list (Value N)) : MVar N := mkVar n vs.
(** basetypes.rs:69-74 [Function::new] *)
Definition function_new (n : str) (a : AST N) (inputs : list str) : MFun N := mkFun n a inputs.
(** basetypes.rs:654-657 [AST::from_variable_name] *)
Definition ast_from_variable_name (n : str) : AST N := AVar n.
End Api.

(** errors.rs:187-204 [LatexError] and [get_reason]; the payload is a message
    of another crate. *)
Inductive LatexError : Type :=
| LatexToPdfError (s : str) | LatexToImageError (s : str) | LatexToSvgError (s : str).
Definition latex_reason (e : LatexError) : str :=
  match e with
  | LatexToPdfError s => lit "Could not convert Latex to PDF: " ++ s ++ lit "!"
  | LatexToImageError s => lit "Could not convert Latex to Image: " ++ s ++ lit "!"
  | LatexToSvgError s => lit "Could not convert Latex to SVG: " ++ s ++ lit "!"
  end.

(** errors.rs:6-13 [MathLibError] *)
Inductive MathLibError : Type :=
| MParserError (e : ParserError) | MEvalError (e : EvalError) | MQuickEvalError (e : QuickEvalError)
| MLatexError (e : LatexError) | MOther (s : str).
(** errors.rs:15-27 [MathLibError::get_reason] *)
Definition mathlib_reason (e : MathLibError) : str :=
  match e with
  | MParserError s => parser_reason s
  | MEvalError s => eval_reason s
  | MQuickEvalError s => quick_reason s
  | MLatexError s => latex_reason s
  | MOther s => s
  end.
(** errors.rs:29-52, 141-145, 172-184: the [From] conversions, which [?] uses *)
Definition mathlib_of_parser : ParserError -> MathLibError := MParserError.
Definition mathlib_of_eval : EvalError -> MathLibError := MEvalError.
Definition mathlib_of_quick : QuickEvalError -> MathLibError := MQuickEvalError.
Definition mathlib_of_latex : LatexError -> MathLibError := MLatexError.
Definition quick_of_parser : ParserError -> QuickEvalError := QParserError.
Definition quick_of_eval : EvalError -> QuickEvalError := QEvalError.
