(** * SpecEval: vocabulary for statements about evaluation.

    The only things used from the model are the data types, the API functions
    of [Maths.v] and [eval] itself. *)
From Coq Require Import List NArith ZArith Bool String Arith.
From Verif Require Import Base F64 Num Types Maths Parser Eval.
Import ListNotations.

Section Spec.
Context {N : Num} {En : Env}.
Notation V := (Value N).

(** [eval(b, c)] finishes with outcome [r]: every large enough amount of fuel
    gives [r]. *)
Definition outcome (b : AST N) (c : Ctx N) (r : res EvalError (list V)) : Prop :=
  r <> Fuel /\ exists f0, forall f, f0 <= f -> eval f b c = r.

(** The same for a term evaluated inside the body of the function [inside]
    ([inside] is empty at top level). *)
Definition outcome_in (inside : str) (b : AST N) (c : Ctx N) (r : res EvalError (list V)) : Prop :=
  r <> Fuel /\ exists f0, forall f, f0 <= f -> eval_rec f b c inside = r.

(** [eval(b, c)] never returns. *)
Definition diverges (b : AST N) (c : Ctx N) : Prop := forall f, eval f b c = Fuel.

(** Which library operation each operator stands for (basetypes.rs:877-926,
    the documentation of [SimpleOpType]). *)
Definition single (r : res string V) : res string (list V) := rmap (fun v => [v]) r.
Definition op_meaning (op : SimpleOp) (x y : V) : res string (list V) :=
  match op with
  | OAdd => single (add x y)
  | OSub => single (sub x y)
  | OAddSub => do s <- add x y; do d <- sub x y; Ok [s; d]
  | ONeg => single (neg y)
  | OMult | OHiddenMult => single (mult x y)
  | ODiv => single (div x y)
  | OCross => single (cross x y)
  | OPow => single (pow x y)
  | OGet => single (get x y)
  | OSin => single (sin x)
  | OCos => single (cos x)
  | OTan => single (tan x)
  | OAbs => single (abs x)
  | OSqrt => single (sqrt x)
  | ORoot => single (root x y)
  | OLn => single (ln x)
  | OArcsin => single (arcsin x)
  | OArccos => single (arccos x)
  | OArctan => single (arctan x)
  | ODet => single (det x)
  | OInv => single (inv x)
  | OParenths => Ok [x]
  end.

(** Values per pair: two for [&], one otherwise. *)
Definition op_width (op : SimpleOp) : nat := match op with OAddSub => 2 | _ => 1 end.

(** [p] comes before [q] in reading order. *)
Definition lex_lt (p q : nat * nat) : Prop :=
  fst p < fst q \/ (fst p = fst q /\ snd p < snd q).

(** The list [res] is the table of [op_meaning op] over all pairs, row by
    row. *)
Definition is_table (op : SimpleOp) (lv rv res : list V) : Prop :=
  List.length res = List.length lv * List.length rv * op_width op /\
  forall i j x y, nth_error lv i = Some x -> nth_error rv j = Some y ->
    exists vs, op_meaning op x y = Ok vs /\ List.length vs = op_width op /\
      forall k v, nth_error vs k = Some v ->
        nth_error res ((i * List.length rv + j) * op_width op + k) = Some v.

(** The first pair in reading order on which the operation fails, fails with
    [e]. *)
Definition first_failure (op : SimpleOp) (lv rv : list V) (e : string) : Prop :=
  exists i j x y,
    nth_error lv i = Some x /\ nth_error rv j = Some y /\ op_meaning op x y = Err e /\
    forall i' j' x' y', lex_lt (i', j') (i, j) ->
      nth_error lv i' = Some x' -> nth_error rv j' = Some y' ->
      exists vs, op_meaning op x' y' = Ok vs.

(** All ways to pick one element of each list, in lexicographic order, the
    last position varying fastest. *)
Fixpoint choices {A} (ls : list (list A)) : list (list A) :=
  match ls with
  | [] => [[]]
  | l :: ls => flat_map (fun x => map (cons x) (choices ls)) l
  end.

(** [l] restricted to scalars. *)
Definition as_scalars (vs : list V) (ss : list T) : Prop := vs = map Scalar ss.

End Spec.

(** ** Syntactic notions on ASTs *)
Section Syntax.
Context {N : Num}.

(** Names of the functions called anywhere in an AST. *)
Fixpoint calls (a : AST N) : list str :=
  match a with
  | AScalar _ | AVar _ => []
  | AVector v => flat_map calls v
  | AMatrix m => flat_map (fun r => flat_map calls r) m
  | AList l => flat_map calls l
  | AFun n inputs => n :: flat_map calls inputs
  | AOp _ l r => calls l ++ calls r
  | AInt e _ l u => calls e ++ calls l ++ calls u
  | ADer e _ at_ => calls e ++ calls at_
  | AEq eqs _ => flat_map (fun e => calls (fst e) ++ calls (snd e)) eqs
  end.

(** No integral anywhere. *)
Fixpoint no_integral (a : AST N) : bool :=
  match a with
  | AScalar _ | AVar _ => true
  | AVector v => forallb no_integral v
  | AMatrix m => forallb (forallb no_integral) m
  | AList l => forallb no_integral l
  | AFun _ inputs => forallb no_integral inputs
  | AOp _ l r => no_integral l && no_integral r
  | AInt _ _ _ _ => false
  | ADer e _ at_ => no_integral e && no_integral at_
  | AEq eqs _ => forallb (fun e => no_integral (fst e) && no_integral (snd e)) eqs
  end.

(** The functions of a context can be ordered so that every body only calls
    functions further down, and no body contains an integral. *)
Definition acyclic (c : Ctx N) : Prop :=
  exists rank : str -> nat,
    forall fn, In fn (funs c) ->
      no_integral (fun_ast fn) = true /\
      forall g, In g (calls (fun_ast fn)) -> rank g < rank (fun_name fn).

(** Errors that are signals between the parts of the equation solver. *)
Definition internal (e : EvalError) : Prop :=
  e = InfiniteSolutions \/ e = NaNOrInf \/ e = ExpressionCheckFailed.
End Syntax.
