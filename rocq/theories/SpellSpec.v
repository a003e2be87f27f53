(** * SpellSpec: what it means that a text spells out a tree.

    A specification: it mentions neither the parser of [Parser.v] nor its
    helpers.  [GrammarSpec.v] describes the texts one should write;
    this file describes every text a tree can come from: which character of
    the text ends up where in the tree, and which operator is the root. *)
From Coq Require Import List NArith ZArith Bool String.
From Verif Require Import Base F64 Num Types GrammarSpec ParserSpec.
Import ListNotations.
Local Open Scope string_scope.
Local Open Scope list_scope.

(** The position after [l] is outside brackets of each kind. *)
Definition outside (l : str) : Prop :=
  count (ch "(") l = count (ch ")") l /\
  count (ch "[") l = count (ch "]") l /\
  count (ch "{") l = count (ch "}") l.

(** [t] is a piece of [s]. *)
Definition piece (t s : str) : Prop := exists p q, s = p ++ t ++ q.

(** [s] has a character that is not ASCII. *)
Definition foreign (s : str) : Prop := exists c, In c s /\ is_ascii c = false.

Section Spec.
Context {N : Num} {En : Env}.

(** Two texts whose touching ends stand for a product. *)
Definition touching (l r : str) : Prop :=
  exists l' c d r', l = l' ++ [c] /\ r = d :: r' /\
    ~ (2 <= List.length l' /\ last l' (ch "0") = ch "_") /\
    ((is_digit c = true /\ (is_alphabetic d = true \/ In d [ch "\"; ch "("; ch "["]))
     \/ (c = ch ")" /\ d = ch "(")).

(** The operators of a text outside brackets: left part, symbol, right part,
    priority, operation.  A last character is not an operator, a first minus
    is the sign. *)
Inductive operator_at (s : str) : str -> str -> str -> nat -> SimpleOp -> Prop :=
| OA_char k c op l r : In (k, c, op) operators -> s = l ++ c :: r -> outside l -> r <> [] ->
    ~ (l = [] /\ op = OSub) -> operator_at s l [c] r k op
| OA_sign r : s = ch "-" :: r -> r <> [] -> operator_at s [] [ch "-"] r 4 ONeg
| OA_touch l r : s = l ++ r -> outside l -> touching l r -> operator_at s l [] r 7 OHiddenMult.

(** The root operator: of lowest priority, and among those the last one for
    subtraction and multiplication, the first one for all others. *)
Definition root_at (s l w r : str) (op : SimpleOp) : Prop :=
  exists k, operator_at s l w r k op /\
  forall l' w' r' k' op', operator_at s l' w' r' k' op' ->
    k <= k' /\
    (k' = k -> if left_assoc k then List.length l' <= List.length l
               else List.length l <= List.length l').

(** The first parenthesis is closed by the last character. *)
Definition wraps (u : str) : Prop :=
  count (ch "(") u = count (ch ")") u /\
  forall p q, u = p ++ q -> count (ch ")") p <= count (ch "(") p.

Section Atoms.
Variable R : str -> AST N -> Prop.

Definition unbalanced (x : str) : Prop := count (ch "(") x <> count (ch ")") x.

(** An entry of [eq(..)].  Text from a second ['='] on is [rest]. *)
Inductive spells_entry : str -> str + AST N * AST N -> Prop :=
| SE_var v : ~ In (ch "=") v -> spells_entry v (inl v)
| SE_equation l r rest a b : R l a -> R r b -> ~ In (ch "=") l -> ~ In (ch "=") r ->
    (rest = [] \/ exists t, rest = ch "=" :: t) ->
    spells_entry (l ++ ch "=" :: r ++ rest)
          (inr (if Nat.leb (byte_len r) (byte_len l) then (a, b) else (b, a))).

Inductive spells_atom : str -> AST N -> Prop :=
| SA_number s x : nparse s = Some x -> spells_atom s (AScalar x)
| SA_variable s : naming_rule s -> spells_atom s (AVar s)
| SA_function op f s a : In (op, f) functions -> R s a ->
    spells_atom (lit f ++ ch "(" :: s ++ [ch ")"]) (AOp op a (AScalar n0))
| SA_root s1 s2 a b : R s1 a -> R s2 b ->
    spells_atom (lit "root(" ++ s1 ++ ch "," :: s2 ++ [ch ")"]) (AOp ORoot a b)
| SA_call f ss aa : naming_rule f -> ss <> [] -> Forall2 R ss aa ->
    spells_atom (f ++ ch "(" :: join (lit ",") ss ++ [ch ")"]) (AFun f aa)
| SA_list ss aa : ss <> [] -> Forall2 R ss aa ->
    spells_atom (ch "{" :: join (lit ",") ss ++ [ch "}"]) (AList aa)
| SA_vector ss aa : ss <> [] -> Forall2 R ss aa ->
    Forall (fun a => match a with AVector _ | AMatrix _ => False | _ => True end) aa ->
    spells_atom (ch "[" :: join (lit ",") ss ++ [ch "]"]) (AVector aa)
| SA_matrix ss vs m r c : Forall2 R ss (map AVector vs) -> 0 < r -> 0 < c -> shape vs r c ->
    (if row_major then m = vs else shape m c r /\ transpose_of vs m) ->
    spells_atom (ch "[" :: join (lit ",") ss ++ [ch "]"]) (AMatrix m)
(* The last character of the next three is a parenthesis, unless the
   parentheses in the (unchecked) variable name do not match. *)
| SA_derivative f x p a b z : R f a -> R p b -> (z = ch ")" \/ unbalanced x) ->
    spells_atom (lit "D(" ++ f ++ ch "," :: x ++ ch "," :: p ++ [z]) (ADer a x b)
| SA_integral f x l u a b c z : R f a -> R l b -> R u c -> (z = ch ")" \/ unbalanced x) ->
    spells_atom (lit "I(" ++ f ++ ch "," :: x ++ ch "," :: l ++ ch "," :: u ++ [z]) (AInt a x b c)
| SA_equations es xs z : es <> [] -> Forall2 spells_entry es xs ->
    (z = ch ")" \/ exists e, In e es /\ unbalanced e) ->
    spells_atom (lit "eq(" ++ join (lit ",") es ++ [z])
      (AEq (flat_map (fun x => match x with inr q => [q] | inl _ => [] end) xs)
           (flat_map (fun x => match x with inl v => [v] | inr _ => [] end) xs)).
End Atoms.

Inductive spells (s : str) : AST N -> Prop :=
| S_wrapped u a : s = ch "(" :: u ++ [ch ")"] -> wraps u -> spells u a ->
    spells s (AOp OParenths a (AScalar n0))
| S_binary l w r op a b : root_at s l w r op -> l <> [] -> spells l a -> spells r b -> spells s (AOp op a b)
| S_prefix w r op b : root_at s [] w r op -> spells r b -> spells s (AOp op (AScalar n0) b)
| S_atom a : (forall l w r k op, ~ operator_at s l w r k op) -> spells_atom spells s a -> spells s a.

(** ** Texts with non-ASCII characters

    The crate counts bytes where it should count characters in two places:
    for the name of a called function and for the length of a bracket.  A
    text is misread only if one of its pieces is, as a whole, such a call
    or bracket. *)
Definition misread (s : str) : Prop :=
  exists t, piece t s /\ count (ch "(") t = count (ch ")") t /\
    (forall l w r k op, ~ operator_at t l w r k op) /\
    ((exists f u, t = f ++ ch "(" :: u ++ [ch ")"] /\ ~ In (ch "(") f /\ foreign f)
     \/ exists u, t = ch "[" :: u /\ foreign u).

End Spec.
