(** * ParserSpec: vocabulary for statements about parsing.

    A specification: only the data types of the model are used. *)
From Coq Require Import List NArith ZArith Bool String.
From Verif Require Import Base F64 Num Types GrammarSpec.
Import ListNotations.
Local Open Scope string_scope.
Local Open Scope list_scope.

(** Occurrences of a character. *)
Fixpoint count (c : char) (s : str) : nat :=
  match s with [] => 0 | x :: t => (if N.eqb x c then 1 else 0) + count c t end.

(** The text without its blanks. *)
Fixpoint no_blanks (s : str) : str :=
  match s with [] => [] | x :: t => if N.eqb x (ch " ") then no_blanks t else x :: no_blanks t end.

(** Every [')'] closes an earlier ['('], and every ['('] is closed. *)
Definition paren_balanced (s : str) : Prop :=
  count (ch "(") s = count (ch ")") s /\
  forall p q, s = p ++ q -> count (ch ")") p <= count (ch "(") p.

Section Spec.
Context {N : Num} {En : Env}.

(** Every white space character of [s] is a blank. *)
Definition only_blanks (s : str) : Prop :=
  forall c, In c s -> is_whitespace c = true -> c = ch " ".

(** No white space at all. *)
Definition solid (s : str) : Prop := forall c, In c s -> is_whitespace c = false.

(** ** Nodes of a tree *)
Definition children (a : AST N) : list (AST N) :=
  match a with
  | AScalar _ | AVar _ => []
  | AVector v => v
  | AMatrix m => List.concat m
  | AList l => l
  | AFun _ args => args
  | AOp _ l r => [l; r]
  | AInt e _ l u => [e; l; u]
  | ADer e _ p => [e; p]
  | AEq eqs _ => flat_map (fun q => [fst q; snd q]) eqs
  end.
Inductive node (x : AST N) : AST N -> Prop :=
| Node_here : node x x
| Node_below b a : In b (children a) -> node x b -> node x a.

(** ** The naming rule *)
Definition operator_char (c : char) : Prop := In c opchars.
(** Opened minus closed curly brackets. *)
Definition brace_depth (p : str) : Z := (Z.of_nat (count (ch "{") p) - Z.of_nat (count (ch "}") p))%Z.
Definition naming_rule (n : str) : Prop :=
  (exists c t, n = c :: t /\ (is_alphabetic c = true \/ c = ch "\")) /\
  forall p x q, n = p ++ x :: q -> brace_depth p = 0%Z ->
    ~ operator_char x /\ x <> ch "=" /\ (is_numeric x = true -> exists p', p = p' ++ [ch "_"]).

(** ** Operator trees and their text *)
Inductive tree : Type :=
| TNum (s : str) (x : T)
| TName (s : str)
| TOp (k : nat) (c : char) (op : SimpleOp) (l r : tree)
| TNeg (t : tree).

(** Leaves are numbers and names, operators are those of the table. *)
Fixpoint proper (t : tree) : Prop :=
  match t with
  | TNum s x => s <> [] /\ number s x
  | TName s => name s /\ solid s
  | TOp k c op l r => In (k, c, op) operators /\ proper l /\ proper r
  | TNeg t => proper t
  end.

Definition parens (b : bool) (s : str) : str := if b then ch "(" :: s ++ [ch ")"] else s.
(** The text of [t] as an operand that may only contain operators of priority
    [k] or more outside parentheses; [lead] says whether a leading minus is
    possible here (at the start of the text, after ['('] or after ['+']).
    Parentheses are written when they are needed. *)
Fixpoint text (k : nat) (lead : bool) (t : tree) : str :=
  match t with
  | TNum s _ => s
  | TName s => s
  | TOp j c _ l r =>
      let need := negb (Nat.leb k j) in
      let lead := (lead || need)%bool in
      parens need (text (if left_assoc j then j else S j) lead l ++ c ::
                   text (if left_assoc j then S j else j) (Nat.eqb j 0) r)
  | TNeg r =>
      let need := negb (lead && Nat.leb k 4)%bool in
      parens need (ch "-" :: text 5 false r)
  end.

(** The AST [a] is the tree [t], up to nodes for the parentheses. *)
Inductive reads : AST N -> tree -> Prop :=
| R_parenths a t z : reads a t -> reads (AOp OParenths a z) t
| R_num s x : reads (AScalar x) (TNum s x)
| R_name s : reads (AVar s) (TName s)
| R_op k c op l r a b : reads a l -> reads b r -> reads (AOp op a b) (TOp k c op l r)
| R_neg t z b : reads b t -> reads (AOp ONeg z b) (TNeg t).

End Spec.
