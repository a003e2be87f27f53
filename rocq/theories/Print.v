(** * Print: conversion to strings, Unicode and LaTeX
    (/repo/src/helpers.rs:3-58, /repo/src/basetypes.rs:306-875,
    /repo/src/latex.rs:68-172, /repo/src/errors.rs).

    [png_from_latex], [svg_from_latex] and the PDF branch of [export_history]
    call other crates and are not modelled. *)
From Coq Require Import List NArith ZArith Bool Ascii String.
From Verif Require Import Base F64 Num Types.
Import ListNotations.
Local Open Scope string_scope.
Local Open Scope list_scope.

Definition nl : str := [10%N].

(** helpers.rs:4-32 [center_in_string].  [f.len()] is a byte length.  The
    [as i32] cast of the length is exact below 2^31 bytes. *)
Definition center_in_string (f : str) (n : Z) : str :=
  let len := Z.of_nat (byte_len f) in
  if Z.ltb n len then f
  else
    let padding := Z.to_nat (n - len) in
    let l := Nat.div padding 2 in
    let r := if Nat.even padding then l else S l in
    spaces l ++ f ++ spaces r.

(** basetypes.rs:5-15 [VAR_SYMBOLS] *)
Definition var_symbols : list (str * char) :=
  [
(lit "\alpha", 120572%N); (lit "\Alpha", 120546%N); (lit "\beta", 120573%N);
   (lit "\Beta", 120547%N); (lit "\gamma", 120574%N); (lit "\Gamma", 120490%N);
   (lit "\delta", 120575%N); (lit "\Delta", 120549%N); (lit "\epsilon", 120634%N);
   (lit "\Epsilon", 120550%N); (lit "\zeta", 120577%N); (lit "\Zeta", 120551%N);
   (lit "\eta", 120578%N); (lit "\Eta", 120552%N); (lit "\theta", 120579%N);
   (lit "\Theta", 120553%N); (lit "\iota", 120580%N); (lit "\Iota", 120554%N);
   (lit "\kappa", 120581%N); (lit "\Kappa", 120555%N); (lit "\lambda", 120582%N);
   (lit "\Lambda", 120556%N); (lit "\mu", 120583%N); (lit "\Mu", 120557%N);
   (lit "\nu", 120584%N); (lit "\Nu", 120558%N); (lit "\xi", 120585%N);
   (lit "\Xi", 120559%N); (lit "\omicron", 120586%N); (lit "\Omicron", 120560%N);
   (lit "pi", 120587%N); (lit "\Pi", 120561%N); (lit "\rho", 120588%N);
   (lit "\Rho", 120562%N); (lit "\sigma", 120590%N); (lit "\Sigma", 120564%N);
   (lit "\tau", 120591%N); (lit "\Tau", 120565%N); (lit "\upsilon", 120592%N);
   (lit "\Upsilon", 120566%N); (lit "\phi", 120593%N); (lit "\Phi", 120567%N);
   (lit "\xi", 120594%N); (lit "\Xi", 120568%N); (lit "\psi", 120595%N);
   (lit "\Psi", 120569%N); (lit "\omega", 120596%N); (lit "\Omega", 120570%N)].

Section Print.
Context {N : Num} {En : Env}.

(** helpers.rs:35-58 [round_and_format] *)
Definition strip_plus (s : str) : str :=
  match s with c :: t => if N.eqb c 43 then t else s | [] => s end.
Definition round_and_format (x : T) (latex : bool) : str :=
  let rounded := round_num (PREC - 2) x in
  if (neqb rounded n0 && negb latex && negb (neqb x n0))%bool then
    strip_plus (nshow_sci x)
  else if (neqb rounded n0 && negb (neqb x n0))%bool then
    let sci := strip_plus (nshow_sci x) in
    let left := before 101%N sci in
    let right := match after 101%N sci with Some r => before 101%N r | None => [] end in
    left ++ lit "\cdot 10^{" ++ right ++ lit "}"
  else
    let s := nshow rounded in
    if (neqb rounded n0 && Nat.ltb 1 (byte_len s))%bool then tl s else s.

(** basetypes.rs:306-345 [Value::as_string] *)
Definition value_as_string (v : Value N) : str :=
  let row l := lit "[" ++ join (lit ",") (map nshow l) ++ lit "]" in
  match v with
  | Matrix m => lit "[" ++ join (lit ",") (map row m) ++ lit "]"
  | Vector l => row l
  | Scalar s => nshow s
  end.

(** basetypes.rs:366-476: [pretty_print].  [middle]: the line that carries the
    variable name. *)
Definition prefix (var_name : option str) : str :=
  match var_name with Some n => n ++ lit " = " | None => [] end.
Definition middle (rows : nat) : nat := Nat.div (rows + 1) 2 - 1.
(** One output line: the name or blanks, the bracket pieces around [body]. *)
Definition pretty_line (var_name : option str) (rows i : nat)
           (tl_ bl ml tr br mr : char) (body : str) : str :=
  let ws := byte_len (prefix var_name) in
  let head := if (Nat.eqb i (middle rows) && match var_name with Some _ => true | None => false end)%bool
              then prefix var_name else spaces ws in
  let last := Nat.eqb i (rows - 1) in
  let l := if Nat.eqb i 0 then tl_ else if last then bl else ml in
  let r := if Nat.eqb i 0 then tr else if last then br else mr in
  head ++ [l] ++ body ++ [r] ++ (if last then [] else nl).
Definition max_list (l : list nat) : option nat :=
  match l with [] => None | x :: t => Some (fold_left Nat.max t x) end.

Definition pretty_print {E} (var_name : option str) (v : Value N) : res E str :=
  match v with
  | Scalar s => Ok (prefix var_name ++ round_and_format s false)
  | Vector l =>
      let rv := map (fun x => round_and_format x false) l in
      do w <- unwrap (max_list (map byte_len rv));
      let n := List.length rv in
      Ok (List.concat (map (fun ix =>
            pretty_line var_name n (fst ix) 9115%N 9117%N 9116%N 9118%N 9120%N 9119%N
              (center_in_string (snd ix) (Z.of_nat w))) (combine (seq 0 n) rv)))
  | Matrix m =>
      do rm <- mapM (fun r => do r0 <- idx m 0;
                     mapM (fun j => do x <- idx r j; Ok (round_and_format x false))
                       (seq 0 (List.length r0))) m;
      do ws <- mapM (fun r => unwrap (max_list (map byte_len r))) rm;
      do w <- unwrap (max_list ws);
      let n := List.length rm in
      Ok (List.concat (map (fun ix =>
            pretty_line var_name n (fst ix) 9121%N 9123%N 9122%N 9124%N 9126%N 9125%N
              (join (lit " ") (map (fun s => center_in_string s (Z.of_nat w)) (snd ix))))
            (combine (seq 0 n) rm)))
  end.

(** basetypes.rs:348-350 [as_unicode] *)
Definition as_unicode {E} (v : Value N) : res E str := pretty_print None v.
(** basetypes.rs:354-363 [as_unicode_at_var] *)
Definition unicode_name (n : str) : str :=
  match find (fun p => str_eqb n (fst p)) var_symbols with
  | Some p => [snd p]
  | None => n
  end.
Definition as_unicode_at_var {E} (v : Value N) (n : str) : res E str :=
  pretty_print (Some (unicode_name n)) v.

(** basetypes.rs:502-528 [Value::latex_print] and 771-798 for ASTs: the same
    layout of already converted entries. *)
Definition latex_vector (l : list str) : str :=
  lit "\begin{pmatrix}" ++ join (lit "\\ ") l ++ lit "\end{pmatrix}".
Definition latex_matrix (m : list (list str)) : str :=
  lit "\begin{bmatrix}" ++
  List.concat (map (fun r => match r with [] => [] | _ => join (lit " & ") r ++ lit " \\" end) m) ++
  lit "\end{bmatrix}".
Definition value_latex (v : Value N) : str :=
  match v with
  | Scalar s => round_and_format s true
  | Vector l => latex_vector (map (fun x => round_and_format x true) l)
  | Matrix m => latex_matrix (map (map (fun x => round_and_format x true)) m)
  end.

Definition pi_name (n : str) : str := if str_eqb n (lit "pi") then lit "\pi" else n.
Definition aligner (b : bool) : str := if b then lit "&" else [].

(** basetypes.rs:486-501 [Value::as_latex_at_var] *)
Definition value_latex_at_var (v : Value N) (n : str) (al : bool) : str :=
  pi_name n ++ lit " " ++ aligner al ++ lit "= " ++ value_latex v.

(** basetypes.rs:572-574 [Values::as_string] *)
Definition values_as_string (vs : list (Value N)) : str :=
  lit "{" ++ join (lit ", ") (map value_as_string vs) ++ lit "}".
(** basetypes.rs:588-596 [Values::as_latex] *)
Definition latex_set (l : list str) : str := lit "\left\{" ++ join (lit "; ") l ++ lit "\right\}".
Definition values_latex (vs : list (Value N)) : str :=
  match vs with
  | [] => lit "No solutions"
  | [v] => value_latex v
  | _ => latex_set (map value_latex vs)
  end.
(** basetypes.rs:600-621 [Values::as_latex_at_var] *)
Definition values_latex_at_var (vs : list (Value N)) (n : str) (al : bool) : str :=
  match vs with
  | [] => pi_name n ++ lit ": No solutions"
  | [v] => pi_name n ++ lit " " ++ aligner al ++ lit "= " ++ value_latex v
  | _ => pi_name n ++ lit " " ++ aligner al ++ lit "= " ++ latex_set (map value_latex vs)
  end.
(** basetypes.rs:45-47 [Variable::as_latex] *)
Definition variable_latex (v : MVar N) (al : bool) : str :=
  values_latex_at_var (var_values v) (var_name v) al.

(** basetypes.rs:684-745 [AST::as_string] *)
Definition op_string (op : SimpleOp) (lv rv : str) : str :=
  let call n := lit n ++ lit "(" ++ lv ++ lit ")" in
  match op with
  | OGet => lv ++ lit "_" ++ rv
  | OAdd => lv ++ lit " + " ++ rv
  | OSub => lv ++ lit " - " ++ rv
  | OAddSub => lv ++ lit " +- " ++ rv
  | OMult => lv ++ lit " * " ++ rv
  | ONeg => lit "-" ++ rv
  | ODiv => lv ++ lit " / " ++ rv
  | OHiddenMult => lv ++ rv
  | OPow => lv ++ lit "^(" ++ rv ++ lit ")"
  | OCross => lv ++ lit "x" ++ rv
  | OAbs => lit "|" ++ lv ++ lit "|"
  | OSin => call "sin"
  | OCos => call "cos"
  | OTan => call "tan"
  | OSqrt => call "sqrt"
  | ORoot => lit "root(" ++ lv ++ lit ", " ++ rv ++ lit ")"
  | OLn => call "ln"
  | OArcsin => call "arcsin"
  | OArccos => call "arccos"
  | OArctan => call "arctan"
  | ODet => call "det"
  | OInv => call "inv"
  | OParenths => lit "(" ++ lv ++ lit ")"
  end.
Fixpoint ast_as_string (a : AST N) : str :=
  match a with
  | AScalar s => round_and_format s false
  | AVector v => lit "[" ++ join (lit ", ") (map ast_as_string v) ++ lit "]"
  | AMatrix m =>
      lit "[" ++ join (lit ", ")
        (map (fun v => lit "[" ++ join (lit ", ") (map ast_as_string v) ++ lit "]") m) ++ lit "]"
  | AList l => lit "{" ++ join (lit ", ") (map ast_as_string l) ++ lit "}"
  | AVar v => v
  | AFun n inputs => n ++ lit "(" ++ join (lit ", ") (map ast_as_string inputs) ++ lit ")"
  | AOp op l r => op_string op (ast_as_string l) (ast_as_string r)
  | AInt e x l u =>
      lit "I(" ++ ast_as_string e ++ lit ", " ++ x ++ lit ", " ++ ast_as_string l ++ lit ", "
      ++ ast_as_string u ++ lit ")"
  | ADer e x at_ =>
      lit "D(" ++ ast_as_string e ++ lit ", " ++ x ++ lit ", " ++ ast_as_string at_ ++ lit ")"
  | AEq eqs _ =>
      lit "eq(" ++ join (lit ",") (map (fun e => ast_as_string (fst e) ++ lit "=" ++ ast_as_string (snd e)) eqs)
      ++ lit ")"
  end.

(** basetypes.rs:762-874 [AST::latex_print] *)
Definition op_latex (op : SimpleOp) (lv rv : str) : str :=
  let call n := lit n ++ lit "\left(" ++ lv ++ lit "\right)" in
  match op with
  | OGet => lv ++ lit "_{" ++ rv ++ lit "}"
  | OAdd => lv ++ lit "+" ++ rv
  | OSub => lv ++ lit "-" ++ rv
  | OAddSub => lv ++ lit "\pm" ++ rv
  | OMult => lv ++ lit "\cdot " ++ rv
  | ONeg => lit "-" ++ rv
  | ODiv => lit "\frac{" ++ lv ++ lit "}{" ++ rv ++ lit "}"
  | OHiddenMult => lv ++ rv
  | OPow => lv ++ lit "^{" ++ rv ++ lit "}"
  | OCross => lv ++ lit "\times " ++ rv
  | OAbs => lit "|" ++ lv ++ lit "|"
  | OSin => call "\sin"
  | OCos => call "\cos"
  | OTan => call "\tan"
  | OSqrt => lit "\sqrt{" ++ lv ++ lit "}"
  | ORoot => lit "\sqrt[" ++ rv ++ lit "]{" ++ lv ++ lit "}"
  | OLn => call "\ln"
  | OArcsin => call "\arcsin"
  | OArccos => call "\arccos"
  | OArctan => call "\arctan"
  | ODet => call "\det"
  | OInv => lv ++ lit "^{-1}"
  | OParenths => lit "\left(" ++ lv ++ lit "\right)"
  end.
Fixpoint ast_latex (a : AST N) : str :=
  match a with
  | AScalar s => round_and_format s true
  | AVector v => latex_vector (map ast_latex v)
  | AMatrix m => latex_matrix (map (map ast_latex) m)
  | AList l => latex_set (map ast_latex l)
  | AVar v => pi_name v
  | AFun n inputs => n ++ lit "\left(" ++ join (lit ", ") (map ast_latex inputs) ++ lit "\right)"
  | AOp op l r => op_latex op (ast_latex l) (ast_latex r)
  | AInt e x l u =>
      lit "\int_{" ++ ast_latex l ++ lit "}^{" ++ ast_latex u ++ lit "}" ++ ast_latex e ++ lit " d" ++ x
  | ADer e x at_ =>
      lit "\frac{\partial}{\partial " ++ x ++ lit "}\left(" ++ ast_latex e
      ++ lit "\right)_{\text{at }" ++ x ++ lit " = " ++ ast_latex at_ ++ lit "}"
  | AEq eqs _ =>
      lit "\left|\begin{align}"
      ++ join (lit "\\ " ++ nl ++ lit " ")
           (map (fun e => ast_latex (fst e) ++ lit "&=" ++ ast_latex (snd e)) eqs)
      ++ lit "\end{align}\right|"
  end.
(** basetypes.rs:752-761 [AST::as_latex_at_fun] *)
Definition ast_latex_at_fun (a : AST N) (n : str) (inputs : list str) (al : bool) : str :=
  n ++ lit "(" ++ join (lit ", ") inputs ++ lit ") " ++ aligner al ++ lit "= " ++ ast_latex a.
(** basetypes.rs:76-78 [Function::as_latex] *)
Definition function_latex (f : MFun N) (al : bool) : str :=
  ast_latex_at_fun (fun_ast f) (fun_name f) (fun_inputs f) al.

(** latex.rs:53-64 [Step] *)
Inductive Step : Type :=
| SCalc (term : AST N) (result : list (Value N)) (variable_save : option str)
| SFun (term : AST N) (inputs : list str) (name : str).

(** latex.rs:69-94 [as_latex_with_tag].  [i32] display; the model takes the
    number in [Z]. *)
Definition tag (k : Z) : str :=
  lit " \tag{" ++ show_Z k ++ lit "}\label{eq:" ++ show_Z k ++ lit "} \\ \\ " ++ nl.
Definition calc_latex (term : AST N) (result : list (Value N)) (save : option str) (al : bool) : str :=
  let head := match save with Some v => v ++ lit " " ++ aligner al ++ lit "= " | None => [] end in
  let al := match save with Some _ => false | None => al end in
  let e := ast_latex term in
  let r := values_latex result in
  head ++ (if str_eqb e r then e else e ++ lit " " ++ aligner al ++ lit "= " ++ r).
Definition step_latex_with_tag (s : Step) (k : Z) : str :=
  match s with
  | SCalc t r v => calc_latex t r v true ++ tag k
  | SFun t i n => ast_latex_at_fun t n i true ++ tag k
  end.
(** latex.rs:96-117 [as_latex] *)
Definition step_latex (s : Step) : str :=
  match s with
  | SCalc t r v => calc_latex t r v true
  | SFun t i n => ast_latex_at_fun t n i true
  end.
(** latex.rs:119-139 [as_latex_inline] *)
Definition step_latex_inline (s : Step) : str :=
  match s with
  | SCalc t r v => calc_latex t r v false
  | SFun t i n => ast_latex_at_fun t n i true
  end.

(** latex.rs:156-171 [export_history] with [ExportType::Tex]; the result is
    the text whose UTF-8 bytes are returned. *)
Definition tex_head : str :=
  lit "\documentclass[12pt, letterpaper]{article}" ++ nl ++ lit "\usepackage{amsmath}" ++ nl
  ++ lit "\usepackage[margin=1in]{geometry}" ++ nl ++ lit "\allowdisplaybreaks" ++ nl
  ++ lit "\begin{document}" ++ nl ++ lit "\begin{align*}" ++ nl.
Definition tex_foot : str := lit "\end{align*}" ++ nl ++ lit "\end{document}".
Definition export_tex (history : list Step) : str :=
  tex_head
  ++ List.concat (map (fun ix => step_latex_with_tag (snd ix) (Z.of_nat (fst ix) + 1))
                      (combine (seq 0 (List.length history)) history))
  ++ tex_foot.

End Print.
Arguments Step : clear implicits.

(** errors.rs:72-88 [ParserError::get_reason] *)
Definition parser_reason (e : ParserError) : str :=
  match e with
  | ParseValue s => lit "Could not parse value " ++ s ++ lit "!"
  | MissingBracket => lit "Could not parse vector/matrix because of missing brackets!"
  | EmptyVec => lit "Could not parse vector/matrix because it is (partially) empty!"
  | NotRectMatrix => lit "Could not parse matrix because it is not rectangular!"
  | EmptyExpr => lit "Could not parse empty expression!"
  | UnmatchedOpenDelimiter => lit "Unmatched opening delimiter!"
  | UnmatchedCloseDelimiter => lit "Unmatched closing delimiter!"
  | EquationWithoutEqual => lit "Must have = in equation!"
  | TooManyEquals => lit "Too many = in equation. If you want to specify a system of equations please seperate each equation with a ','."
  | NoEquation => lit "Equation does not contain an '='!"
  | InvalidVariableName s => lit "Found invalid variable name: " ++ s ++ lit "!"
  | InvalidFunctionName s => lit "Found invalid function name: " ++ s ++ lit "!"
  | PWrongNumberOfArgs s => lit "Wrong number of arguments for " ++ s ++ lit " operation!"
  end.
(** errors.rs:117-135 [EvalError::get_reason] *)
Definition eval_reason (e : EvalError) : str :=
  match e with
  | RecursiveFunction => lit "Can't call a recursive function!"
  | NonScalarInVector => lit "Vectors can only contain scalars!"
  | NonScalarInMatrix => lit "Matrices can only contain scalars!"
  | VectorInEq => lit "Can't have vectors in equations! Please convert your equation into a system of equations!"
  | MatrixInEq => lit "Can't have matrices in equations!"
  | NothingToDoEq => lit "Nothing to do!"
  | UnderdeterminedSystem => lit "Underdetermined system of equations!"
  | InfiniteSolutions => lit "Infinite Solutions!"
  | NaNOrInf => lit "NaN or Inf"
  | ExpressionCheckFailed => lit "Expression Check Failed!"
  | SearchVarsInVars => lit "The given solve variables already exist in the context!"
  | NoVariable s => lit "Could not find variable " ++ s ++ lit "!"
  | NoFunction s => lit "Could not find function " ++ s ++ lit "!"
  | WrongNumberOfArgs e g =>
      lit "Wrong number of arguments! Expected " ++ show_Z (Z.of_nat e) ++ lit " arguments, "
      ++ show_Z (Z.of_nat g) ++ lit " were given!"
  | MathError s => lit s
  end.
(** errors.rs:158-164 [QuickEvalError::get_reason] *)
Definition quick_reason (e : QuickEvalError) : str :=
  match e with
  | DuplicateVars => lit "Can't specify e and pi twice!"
  | QEvalError e => eval_reason e
  | QParserError e => parser_reason e
  end.
