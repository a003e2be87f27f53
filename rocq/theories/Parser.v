(** * Parser: /repo/src/parser.rs:1-388 ([parse] and what it calls). *)
From Coq Require Import List NArith ZArith Bool Ascii String.
From Verif Require Import Base F64 Num Types Helpers.
Import ListNotations.
Local Open Scope string_scope.
Local Open Scope list_scope.

(** parser.rs:3-15 [get_op_symbol] *)
Definition get_op_symbol (c : char) : option SimpleOp :=
  if N.eqb c 63 then Some OGet            (* ? *)
  else if N.eqb c 43 then Some OAdd       (* + *)
  else if N.eqb c 45 then Some OSub       (* - *)
  else if N.eqb c 38 then Some OAddSub    (* & *)
  else if N.eqb c 42 then Some OMult      (* * *)
  else if N.eqb c 47 then Some ODiv       (* / *)
  else if N.eqb c 94 then Some OPow       (* ^ *)
  else if N.eqb c 35 then Some OCross     (* # *)
  else None.

Section Parser.
Context {N : Num} {En : Env}.

(** parser.rs:18-50 [is_valid_var_name].  The loop body, with the depth of
    curly brackets [d] and the previous character [p]. *)
Definition is_op_or_eq (c : char) : bool :=
  match get_op_symbol c with Some _ => true | None => N.eqb c 61 end.
Fixpoint valid_name_go (cs : str) (d : Z) (p : char) : bool :=
  match cs with
  | [] => true
  | i :: t =>
      let d := if N.eqb i 123 then (d + 1)%Z else d in
      let d := if N.eqb i 125 then (d - 1)%Z else d in
      if (is_op_or_eq i && Z.eqb d 0)%bool then false
      else if (is_numeric i && Z.eqb d 0 && negb (N.eqb p 95))%bool then false
      else valid_name_go t d i
  end.
(** Indexing [var_chars\[0\]] panics on the empty name. *)
Definition is_valid_var_name {E} (v : str) : res E bool :=
  match v with
  | [] => Panic
  | c :: _ =>
      if (negb (is_alphabetic c) && negb (N.eqb c 92))%bool then Ok false
      else Ok (valid_name_go v 0 92%N)
  end.

(** parser.rs:127-139: the number of unclosed parentheses and whether no [')']
    before the last character brings the count to zero. *)
Fixpoint paren_scan (cs : str) (d : Z) (chk : bool) : Z * bool :=
  match cs with
  | [] => (d, chk)
  | c :: t =>
      let d1 := if N.eqb c 40 then (d + 1)%Z else d in
      if N.eqb c 41 then
        let d2 := (d1 - 1)%Z in
        let last := match t with [] => true | _ => false end in
        paren_scan t d2 (if (Z.eqb d2 0 && negb last)%bool then false else chk)
      else paren_scan t d1 chk
  end.

(** An entry [(op, i, w)] of [ops_in_expr]: the operation, the position and
    the width of the symbol.  (The third component of the Rust tuple is always 0
    and is dropped.) *)
Definition op_entry : Type := SimpleOp * nat * nat.

(** parser.rs:168-173 [is_hidden_mult] at position [i] of [full]. *)
Definition hidden_mult (full : str) (i : nat) (last c : char) : bool :=
  let h := ((is_digit last && (is_alphabetic c || N.eqb c 92 || N.eqb c 40 || N.eqb c 91))
            || (N.eqb last 41 && N.eqb c 40))%bool in
  if h then
    if (Nat.ltb 2 i && match nth_error full (i - 2) with Some u => N.eqb u 95 | None => false end)%bool
    then false else true
  else false.

(** parser.rs:163-211: collect the operators at bracket depth 0.  [po], [bo],
    [co] are the open [(], [\[] and [{]. *)
Fixpoint scan_ops (full : str) (cs : str) (i : nat) (last : char) (po bo co : Z)
  : list op_entry :=
  match cs with
  | [] => []
  | c :: t =>
      let top := (Z.eqb po 0 && Z.eqb bo 0 && Z.eqb co 0)%bool in
      let h := if (top && hidden_mult full i last c)%bool then [(OHiddenMult, i, 0)] else [] in
      h ++
      if N.eqb c 40 then scan_ops full t (S i) c (po + 1) bo co
      else if N.eqb c 41 then scan_ops full t (S i) c (po - 1) bo co
      else if N.eqb c 91 then scan_ops full t (S i) c po (bo + 1) co
      else if N.eqb c 93 then scan_ops full t (S i) c po (bo - 1) co
      else if N.eqb c 123 then scan_ops full t (S i) c po bo (co + 1)
      else if N.eqb c 125 then scan_ops full t (S i) c po bo (co - 1)
      else
        let is_last := match t with [] => true | _ => false end in
        match get_op_symbol c with
        | Some op =>
            if (top && negb is_last)%bool then
              (if (Nat.eqb i 0 && op_eqb op OSub)%bool then (ONeg, i, 1) else (op, i, 1))
              :: scan_ops full t (S i) c po bo co
            else scan_ops full t (S i) c po bo co
        | None => scan_ops full t (S i) c po bo co
        end
  end.

(** parser.rs:160 [op_types] *)
Definition op_types : list SimpleOp :=
  [OAdd; OSub; OAddSub; OMult; ONeg; ODiv; OCross; OHiddenMult; OPow; OGet].

Fixpoint op_index (o : SimpleOp) (l : list SimpleOp) (j : nat) : option nat :=
  match l with
  | [] => None
  | x :: t => if op_eqb x o then Some j else op_index o t (S j)
  end.

(** parser.rs:162, 213-220 [highest_op] *)
Definition highest_op (ops : list op_entry) : nat :=
  fold_left (fun h e => match op_index (fst (fst e)) op_types 0 with
                        | Some j => if Nat.ltb j h then j else h
                        | None => h end) ops 7.

(** parser.rs:222-228: the operator to split at. *)
Definition select_op (ops : list op_entry) : option op_entry :=
  let h := highest_op ops in
  let ops := if (Nat.eqb h 1 || Nat.eqb h 3)%bool then rev ops else ops in
  fold_right (fun o acc =>
      match find (fun e => op_eqb (fst (fst e)) o) ops with
      | Some e => Some e
      | None => acc
      end) None op_types.

(** parser.rs:251 [function_look_up] *)
Definition function_look_up : list (SimpleOp * str) :=
  [(OSin, lit "sin("); (OCos, lit "cos("); (OTan, lit "tan("); (OAbs, lit "abs(");
   (OSqrt, lit "sqrt("); (ORoot, lit "root("); (OLn, lit "ln(");
   (OArcsin, lit "arcsin("); (OArccos, lit "arccos("); (OArctan, lit "arctan(");
   (ODet, lit "det("); (OInv, lit "inv(")].

(** parser.rs:283 [advanced_op_look_up] *)
Inductive AdvOp := AdvIntegral | AdvDerivative | AdvEquation.
Definition advanced_look_up : list (AdvOp * str) :=
  [(AdvIntegral, lit "I("); (AdvDerivative, lit "D("); (AdvEquation, lit "eq(")].

(** Column-major reading of a rectangular literal (parser.rs:90-103): entry
    [i][j] of the result is entry [j][i] of the literal. *)
Definition transpose_lit {E A} (m : list (list A)) : res E (list (list A)) :=
  do c <- (do r <- idx m 0; Ok (List.length r));
  mapM (fun i => mapM (fun r => idx r i) m) (seq 0 c).

Section Rec.
(** The recursive call. *)
Variable rec : str -> res ParserError (AST N).

(** parser.rs:52-113 [parse_value].  [s.len()] is a byte length while
    [chars().nth(..)] counts characters. *)
Definition parse_value (s : str) : res ParserError (AST N) :=
  if negb (contains s 91%N) then
    match nparse s with
    | Some f => Ok (AScalar f)
    | None => Err (ParseValue s)
    end
  else if Nat.leb 2 (byte_len s) then
    do c0 <- idx s 0;
    do bracketed <-
      (if N.eqb c0 91 then do cl <- idx s (byte_len s - 1); Ok (N.eqb cl 93) else Ok false);
    if (bracketed : bool) then
      do inner <- slice s 1 (byte_len s - 1);
      let args := get_args inner in
      if match args with [] => true | [] :: _ => true | _ => false end then Err EmptyVec
      else
        do out <- mapM rec args;
        let is_vec := forallb (fun a => match a with AVector _ => false | _ => true end) out in
        let is_mat := forallb (fun a => match a with AMatrix _ => false | _ => true end) out in
        if (is_vec && is_mat)%bool then Ok (AVector out)
        else if (is_mat && negb is_vec)%bool then
          do m <- mapM (fun a => match a with AVector v => Ok v | _ => Err NotRectMatrix end) out;
          do size <- (do r <- idx m 0; Ok (List.length r));
          if negb (forallb (fun r => Nat.eqb (List.length r) size) m) then Err NotRectMatrix
          else if row_major then Ok (AMatrix m)
          else do c <- transpose_lit m; Ok (AMatrix c)
        else Err (ParseValue s)
    else Err MissingBracket
  else Err (ParseValue s).

(** parser.rs:226-247: split at the chosen operator; the right operand is
    parsed first. *)
Definition parse_split (expr : str) (e : op_entry) : res ParserError (AST N) :=
  let '(op, i, w) := e in
  do right_s <- slice expr (i + w) (List.length expr);
  do left_s <- slice expr 0 i;
  do right_b <- rec right_s;
  match left_s with
  | [] => Ok (AOp op (AScalar n0) right_b)
  | _ => do left_b <- rec left_s; Ok (AOp op left_b right_b)
  end.

(** parser.rs:253-279: built-in functions. *)
Definition parse_builtin (expr : str) (op : SimpleOp) (p : str) : res ParserError (AST N) :=
  do inner <- slice expr (List.length p) (List.length expr - 1);
  if op_eqb op ORoot then
    match get_args inner with
    | [a; b] => do l <- rec a; do r <- rec b; Ok (AOp op l r)
    | _ => Err (PWrongNumberOfArgs (lit "root"))
    end
  else do l <- rec inner; Ok (AOp op l (AScalar n0)).

(** parser.rs:324-344: one entry of [eq(..)]: a search variable or an
    equation.  [split("=").nth(0)] and [nth(1)]: everything after a second ['=']
    is dropped. *)
Definition parse_eq_entry (i : str) : res ParserError (str + AST N * AST N) :=
  if negb (contains i 61%N) then Ok (inl i)
  else
    let left := before 61%N i in
    do rest <- unwrap (after 61%N i);
    let right := before 61%N rest in
    if Nat.leb (byte_len right) (byte_len left) then
      do l <- rec left; do r <- rec right; Ok (inr (l, r))
    else
      do l <- rec right; do r <- rec left; Ok (inr (l, r)).

(** parser.rs:285-350: integral, derivative, equation. *)
Definition parse_advanced (expr : str) (op : AdvOp) (p : str) : res ParserError (AST N) :=
  do inner <- slice expr (List.length p) (List.length expr - 1);
  let args := get_args inner in
  match op with
  | AdvDerivative =>
      match args with
      | [f; x; a] => do pf <- rec f; do pa <- rec a; Ok (ADer pf x pa)
      | _ => Err (PWrongNumberOfArgs (lit "derivative"))
      end
  | AdvIntegral =>
      match args with
      | [f; x; l; u] =>
          do pf <- rec f; do pl <- rec l; do pu <- rec u; Ok (AInt pf x pl pu)
      | _ => Err (PWrongNumberOfArgs (lit "integral"))
      end
  | AdvEquation =>
      do es <- mapM parse_eq_entry args;
      Ok (AEq (flat_map (fun e => match e with inr q => [q] | inl _ => [] end) es)
              (flat_map (fun e => match e with inl v => [v] | inr _ => [] end) es))
  end.

(** parser.rs:354-367: a call of a user-defined function.  [expr.find("(")] is
    a byte offset, used as a character offset. *)
Definition parse_call (expr : str) : res ParserError (AST N) :=
  let func_name := before 40%N expr in
  let first_parenth := byte_len func_name in
  do inner <- slice expr (first_parenth + 1) (List.length expr - 1);
  do args <- mapM rec (get_args inner);
  do ok <- is_valid_var_name func_name;
  if (ok : bool) then Ok (AFun func_name args) else Err (InvalidFunctionName func_name).

Fixpoint try_prefix {A} (expr : str) (l : list (A * str))
         (k : A -> str -> res ParserError (AST N)) (otherwise : res ParserError (AST N)) :=
  match l with
  | [] => otherwise
  | (a, p) :: t => if starts_with expr p then k a p else try_prefix expr t k otherwise
  end.

(** parser.rs:249-388: what is not an operation. *)
Definition parse_atom (expr : str) (c0 cl : char) : res ParserError (AST N) :=
  try_prefix expr function_look_up (parse_builtin expr)
  (try_prefix expr advanced_look_up (parse_advanced expr)
  (if (contains expr 40%N && negb (N.eqb c0 40) && N.eqb cl 41)%bool then parse_call expr
   else if (is_alphabetic c0 || N.eqb c0 92)%bool then
     do ok <- is_valid_var_name expr;
     if (ok : bool) then Ok (AVar expr) else Err (InvalidVariableName expr)
   else if (N.eqb c0 123 && N.eqb cl 125)%bool then
     do inner <- slice expr 1 (List.length expr - 1);
     do es <- mapM rec (get_args inner);
     Ok (AList es)
   else parse_value expr)).

(** parser.rs:121-388: the body of [parse_inner]. *)
Definition parse_body (expr : str) : res ParserError (AST N) :=
  match expr with
  | [] => Err EmptyExpr
  | c0 :: _ =>
      let cl := last expr c0 in
      let '(po, chk) := paren_scan expr 0 true in
      if Z.ltb 0 po then Err UnmatchedOpenDelimiter
      else if Z.ltb po 0 then Err UnmatchedCloseDelimiter
      else if (chk && N.eqb c0 40 && N.eqb cl 41)%bool then
        do inner <- slice expr 1 (List.length expr - 1);
        do l <- rec inner;
        Ok (AOp OParenths l (AScalar n0))
      else
        match select_op (scan_ops expr expr 0 92%N 0 0 0) with
        | Some e => parse_split expr e
        | None => parse_atom expr c0 cl
        end
  end.
End Rec.

(** parser.rs:121 [parse_inner]: the recursion, on fuel. *)
Fixpoint parse_inner (fuel : nat) (expr : str) : res ParserError (AST N) :=
  match fuel with
  | O => Fuel
  | S f => parse_body (parse_inner f) expr
  end.

Fixpoint trim_start (s : str) : str :=
  match s with
  | c :: t => if is_whitespace c then trim_start t else s
  | [] => []
  end.
Definition trim (s : str) : str := rev (trim_start (rev (trim_start s))).

(** parser.rs:116-119 [parse]: [trim], then drop every [' ']
    ([split(" ")], keep the non-empty pieces, concatenate). *)
Definition strip_spaces (s : str) : str :=
  filter (fun c => negb (N.eqb c 32)) (trim s).
Definition parse (s : str) : res ParserError (AST N) :=
  let e := strip_spaces s in
  parse_inner (S (List.length e)) e.

End Parser.
