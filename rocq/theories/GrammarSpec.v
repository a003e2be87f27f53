(** * GrammarSpec: a grammar for the expressions of the crate's documentation.

    This file is a specification: it mentions neither the parser of
    [Parser.v] nor its helpers.  The documented priority order (parser.rs:160,
    lib.rs docs: [Add < Sub < AddSub < Mult < Neg < Div < Cross < HiddenMult <
    Pow < Get]) is the level of a phrase: a phrase of level [k] has no operator
    of priority below [k] outside brackets. *)
From Coq Require Import List NArith ZArith Bool Ascii String.
From Verif Require Import Base F64 Num Types.
Import ListNotations.
Local Open Scope string_scope.
Local Open Scope list_scope.

Definition ch (s : string) : char := match lit s with c :: _ => c | [] => 0%N end.

(** Priority, character and operation of the binary operators written with a
    character. *)
Definition operators : list (nat * char * SimpleOp) :=
  [ (0, ch "+", OAdd); (1, ch "-", OSub); (2, ch "&", OAddSub); (3, ch "*", OMult);
    (5, ch "/", ODiv); (6, ch "#", OCross); (8, ch "^", OPow); (9, ch "?", OGet) ].
(** Sub and Mult group to the left, all others to the right. *)
Definition left_assoc (k : nat) : bool := (Nat.eqb k 1 || Nat.eqb k 3)%bool.

Definition brackets : list char := [ch "("; ch ")"; ch "["; ch "]"; ch "{"; ch "}"].
Definition opchars : list char := map (fun t => snd (fst t)) operators.

(** One-argument functions. *)
Definition functions : list (SimpleOp * string) :=
  [(OSin, "sin"); (OCos, "cos"); (OTan, "tan"); (OAbs, "abs"); (OSqrt, "sqrt"); (OLn, "ln");
   (OArcsin, "arcsin"); (OArccos, "arccos"); (OArctan, "arctan"); (ODet, "det"); (OInv, "inv")].
(** Names that cannot be used for user-defined functions. *)
Definition reserved : list string :=
  ["sin"; "cos"; "tan"; "abs"; "sqrt"; "root"; "ln"; "arcsin"; "arccos"; "arctan"; "det"; "inv"; "I"; "D"; "eq"].

Section Spec.
Context {N : Num} {En : Env}.

(** A number: digits and a decimal point, accepted by [f64]'s parser. *)
Definition number (s : str) (x : T) : Prop :=
  Forall (fun c => is_digit c = true \/ c = ch ".") s /\ nparse s = Some x.

(** The rest of a name: characters other than brackets, operators, ['='],
    [','] and digits; a digit after ['_']; any bracket-free text in braces. *)
Definition plain (c : char) : Prop :=
  ~ In c brackets /\ ~ In c opchars /\ c <> ch "=" /\ c <> ch "," /\ is_numeric c = false.
Inductive name_rest : str -> Prop :=
| NR_nil : name_rest []
| NR_char c t : plain c -> name_rest t -> name_rest (c :: t)
| NR_index d t : is_numeric d = true -> name_rest t -> name_rest (ch "_" :: d :: t)
| NR_braces u t : (forall c, In c u -> ~ In c brackets) -> name_rest t ->
    name_rest (ch "{" :: u ++ ch "}" :: t).
Definition name (s : str) : Prop :=
  exists c t, s = c :: t /\ (is_alphabetic c = true \/ c = ch "\") /\ plain c /\ name_rest t.

(** Text in which brackets match and [','] only occurs inside brackets. *)
Inductive arg_text : str -> Prop :=
| AT_nil : arg_text []
| AT_char c t : ~ In c brackets -> c <> ch "," -> arg_text t -> arg_text (c :: t)
| AT_group o c u t : In (o, c) [(ch "(", ch ")"); (ch "[", ch "]"); (ch "{", ch "}")] ->
    group_text u -> arg_text t -> arg_text (o :: u ++ c :: t)
with group_text : str -> Prop :=
| GT_nil : group_text []
| GT_char c t : ~ In c brackets -> group_text t -> group_text (c :: t)
| GT_group o c u t : In (o, c) [(ch "(", ch ")"); (ch "[", ch "]"); (ch "{", ch "}")] ->
    group_text u -> group_text t -> group_text (o :: u ++ c :: t).

(** Two phrases written next to each other are multiplied if the first ends in
    a digit and the second starts with a letter, ['\\'], ['('] or ['\['], or if the
    first ends with [')'] and the second starts with ['(']; but not if the
    character before the end of the first one is ['_']. *)
Definition juxtaposed (l r : str) : Prop :=
  exists l' c d r', l = l' ++ [c] /\ r = d :: r' /\
    last l' (ch "0") <> ch "_" /\
    ((is_digit c = true /\ (is_alphabetic d = true \/ In d [ch "\"; ch "("; ch "["]))
     \/ (c = ch ")" /\ d = ch "(")).

(** Column-major reading of a matrix literal. *)
Definition transpose_of {A} (m m' : list (list A)) : Prop :=
  forall i j, match nth_error m' i with Some r => nth_error r j | None => None end
            = match nth_error m j with Some r => nth_error r i | None => None end.
Definition shape {A} (m : list (list A)) (r c : nat) : Prop :=
  List.length m = r /\ Forall (fun l => List.length l = c) m.

Definition ascii_text (s : str) : Prop := Forall (fun c => is_ascii c = true) s.

(** One entry of [eq(..)] *)
Inductive entry (R : str -> AST N -> Prop) : str -> str + AST N * AST N -> Prop :=
| EN_var v : arg_text v -> ~ In (ch "=") v -> entry R v (inl v)
| EN_equation l r a b : R l a -> R r b -> ~ In (ch "=") l -> ~ In (ch "=") r ->
    (* the longer side (in bytes) becomes the left side *)
    entry R (l ++ ch "=" :: r)
          (inr (if Nat.leb (byte_len r) (byte_len l) then (a, b) else (b, a))).

(** Atoms; [R] relates the texts between brackets to their trees. *)
Inductive atom (R : str -> AST N -> Prop) : str -> AST N -> Prop :=
| A_number s x : s <> [] -> number s x -> atom R s (AScalar x)
| A_variable s : name s -> atom R s (AVar s)
| A_parenths s a : R s a -> atom R (ch "(" :: s ++ [ch ")"]) (AOp OParenths a (AScalar n0))
| A_function op f s a : In (op, f) functions -> R s a ->
    atom R (lit f ++ ch "(" :: s ++ [ch ")"]) (AOp op a (AScalar n0))
| A_root s1 s2 a b : R s1 a -> R s2 b ->
    atom R (lit "root(" ++ join (lit ",") [s1; s2] ++ [ch ")"]) (AOp ORoot a b)
| A_call f ss aa : name f -> ascii_text f -> ~ In f (map lit reserved) -> ss <> [] -> Forall2 R ss aa ->
    atom R (f ++ ch "(" :: join (lit ",") ss ++ [ch ")"]) (AFun f aa)
| A_list ss aa : ss <> [] -> Forall2 R ss aa ->
    atom R (ch "{" :: join (lit ",") ss ++ [ch "}"]) (AList aa)
| A_vector ss aa : ss <> [] -> Forall ascii_text ss -> Forall2 R ss aa ->
    Forall (fun a => match a with AVector _ | AMatrix _ => False | _ => True end) aa ->
    atom R (ch "[" :: join (lit ",") ss ++ [ch "]"]) (AVector aa)
| A_matrix ss vs m r c : Forall ascii_text ss -> Forall2 R ss (map AVector vs) -> 0 < r -> 0 < c -> shape vs r c ->
    (if row_major then m = vs else shape m c r /\ transpose_of vs m) ->
    atom R (ch "[" :: join (lit ",") ss ++ [ch "]"]) (AMatrix m)
| A_derivative f x p a b : R f a -> arg_text x -> R p b ->
    atom R (lit "D(" ++ join (lit ",") [f; x; p] ++ [ch ")"]) (ADer a x b)
| A_integral f x l u a b c : R f a -> arg_text x -> R l b -> R u c ->
    atom R (lit "I(" ++ join (lit ",") [f; x; l; u] ++ [ch ")"]) (AInt a x b c)
| A_equations es xs : es <> [] -> Forall2 (entry R) es xs ->
    atom R (lit "eq(" ++ join (lit ",") es ++ [ch ")"])
      (AEq (flat_map (fun x => match x with inr q => [q] | inl _ => [] end) xs)
           (flat_map (fun x => match x with inl v => [v] | inr _ => [] end) xs)).

(** Phrases of level [k].  [lead] is [true] for a phrase at the start of an
    expression (or of a bracketed text, or after ['+']): only there may it start
    with an operator. *)
Inductive phrase (R : str -> AST N -> Prop) : nat -> bool -> str -> AST N -> Prop :=
| P_atom lead s a : atom R s a -> phrase R 10 lead s a
| P_tighter k lead s a : phrase R (S k) lead s a -> phrase R k lead s a
| P_lead k s a : phrase R k false s a -> phrase R k true s a
| P_left k lead c op l r a b : In (k, c, op) operators -> left_assoc k = true ->
    phrase R k lead l a -> phrase R (S k) false r b ->
    phrase R k lead (l ++ c :: r) (AOp op a b)
| P_right k lead c op l r a b : In (k, c, op) operators -> left_assoc k = false ->
    phrase R (S k) lead l a -> phrase R k (Nat.eqb k 0) r b ->
    phrase R k lead (l ++ c :: r) (AOp op a b)
| P_neg r b : phrase R 5 false r b ->
    phrase R 4 true (ch "-" :: r) (AOp ONeg (AScalar n0) b)
| P_prefix k c op r b : In (k, c, op) operators -> op <> OSub ->
    phrase R (if left_assoc k then S k else k) (Nat.eqb k 0) r b ->
    phrase R k true (c :: r) (AOp op (AScalar n0) b)
| P_juxtaposed lead l r a b : juxtaposed l r ->
    phrase R 8 lead l a -> phrase R 7 false r b ->
    phrase R 7 lead (l ++ r) (AOp OHiddenMult a b).

(** Expressions. *)
Inductive expression (s : str) (a : AST N) : Prop :=
| Expression : phrase expression 0 true s a -> expression s a.

End Spec.
