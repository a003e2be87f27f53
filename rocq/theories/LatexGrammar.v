(** * LatexGrammar: how a reader groups LaTeX mathematics (for C57).

    [reads s a]: the LaTeX text [s], read with the usual conventions, is the
    expression [a].  The conventions: a fraction, a root, a bracket, a call, a
    column or an array is one item; powers and subscripts belong to the item
    before them; factors next to each other bind tighter than a cross product,
    this tighter than a product with a dot, this tighter than plus-minus,
    differences and sums; products with a dot and differences group to the left.
    A command is a backslash and all letters after it. *)
From Coq Require Import List NArith Bool String.
From Verif Require Import Base F64 Num Types LatexSpec GrammarSpec.
Import ListNotations.
Local Open Scope string_scope.
Local Open Scope list_scope.

(** Functions that have a LaTeX command. *)
Definition latex_functions : list (SimpleOp * string) :=
  [(OSin, "\sin"); (OCos, "\cos"); (OTan, "\tan"); (OLn, "\ln"); (OArcsin, "\arcsin"); (OArccos, "\arccos");
   (OArctan, "\arctan"); (ODet, "\det")].

(** The reader sees where the first factor ends and the second starts: after a
    digit or a closing bracket, and before a letter or a command; a bar may stand on one side. *)
Definition side_by_side {En : Env} (l r : str) : Prop :=
  exists l' c d r', l = l' ++ [c] /\ r = d :: r' /\
    ((is_digit c = true \/ c = ch "}" \/ c = ch ")") /\ (is_alphabetic d = true \/ d = ch "\" \/ d = ch "|")
     \/ c = ch "|" /\ d = ch "\").
(** A command without a blank after it ends here. *)
Definition ends_command (s : str) : Prop := match s with c :: _ => letter c = false | [] => True end.

Section Grammar.
Context {N : Num} {En : Env}.
(** An item that does not carry a subscript yet (TeX rejects a second one). *)
Definition bare (a : AST N) : Prop := match a with AVar n => ~ In (ch "_") n | ADer _ _ _ => False | _ => True end.

(** Levels: 0 sums, 1 differences, 2 plus-minus, 3 products with a dot, 4 signs,
    6 cross products, 7 factors side by side and integrals, 8 powers, 9
    subscripts, 10 items.  [lead]: a sign may stand here. *)
Inductive lx : nat -> bool -> str -> AST N -> Prop :=
| X_tighter k lead s a : lx (S k) lead s a -> lx k lead s a
| X_lead k s a : lx k false s a -> lx k true s a
(* items *)
| X_number s x : s <> [] -> number s x -> lx 10 false s (AScalar x)
| X_variable n : name n -> n <> lit "pi" -> lx 10 false n (AVar n)
| X_pi : lx 10 false (lit "\pi") (AVar (lit "pi"))
| X_brackets s a : lx 0 true s a -> lx 10 false (lit "\left(" ++ s ++ lit "\right)") (AOp OParenths a (AScalar n0))
| X_function op f s a : In (op, f) latex_functions -> lx 0 true s a ->
    lx 10 false (lit f ++ lit "\left(" ++ s ++ lit "\right)") (AOp op a (AScalar n0))
| X_abs s a : lx 0 true s a -> lx 10 false (lit "|" ++ s ++ lit "|") (AOp OAbs a (AScalar n0))
| X_sqrt s a : lx 0 true s a -> lx 10 false (lit "\sqrt{" ++ s ++ lit "}") (AOp OSqrt a (AScalar n0))
| X_root s n a b : lx 0 true s a -> lx 0 true n b -> lx 10 false (lit "\sqrt[" ++ n ++ lit "]{" ++ s ++ lit "}") (AOp ORoot a b)
| X_fraction s t a b : lx 0 true s a -> lx 0 true t b -> lx 10 false (lit "\frac{" ++ s ++ lit "}{" ++ t ++ lit "}") (AOp ODiv a b)
| X_call f ss aa : name f -> Forall2 (lx 0 true) ss aa ->
    lx 10 false (f ++ lit "\left(" ++ join (lit ", ") ss ++ lit "\right)") (AFun f aa)
| X_set ss aa : Forall2 (lx 0 true) ss aa -> lx 10 false (lit "\left\{" ++ join (lit "; ") ss ++ lit "\right\}") (AList aa)
| X_column ss aa : Forall2 (lx 0 true) ss aa ->
    lx 10 false (lit "\begin{pmatrix}" ++ join (lit "\\ ") ss ++ lit "\end{pmatrix}") (AVector aa)
| X_array rows m : Forall2 (Forall2 (lx 0 true)) rows m ->
    lx 10 false (lit "\begin{bmatrix}" ++ List.concat (map (fun r => join (lit " & ") r ++ lit " \\") rows) ++ lit "\end{bmatrix}") (AMatrix m)
| X_derivative x s t a b : lx 0 true s a -> lx 0 true t b ->
    lx 10 false (lit "\frac{\partial}{\partial " ++ x ++ lit "}\left(" ++ s ++ lit "\right)_{\text{at }" ++ x ++ lit " = " ++ t ++ lit "}")
      (ADer a x b)
| X_system ls rs eqs xs : Forall2 (lx 0 true) ls (map fst eqs) -> Forall2 (lx 0 true) rs (map snd eqs) ->
    (* the unknowns are not shown *)
    lx 10 false (lit "\left|\begin{align}" ++ join (lit "\\ " ++ [10%N] ++ lit " ") (map (fun q => fst q ++ lit "&=" ++ snd q) (combine ls rs))
                 ++ lit "\end{align}\right|") (AEq eqs xs)
(* subscripts, powers *)
| X_index lead s i a b : lx 10 lead s a -> bare a -> lx 0 true i b -> lx 9 lead (s ++ lit "_{" ++ i ++ lit "}") (AOp OGet a b)
| X_power lead s n a b : lx 9 lead s a -> lx 0 true n b -> lx 8 lead (s ++ lit "^{" ++ n ++ lit "}") (AOp OPow a b)
| X_inverse lead s a : lx 9 lead s a -> lx 8 lead (s ++ lit "^{-1}") (AOp OInv a (AScalar n0))
(* an integral ends with its variable *)
| X_integral x s l u a b c : lx 0 true s a -> lx 0 true l b -> lx 0 true u c ->
    lx 7 false (lit "\int_{" ++ l ++ lit "}^{" ++ u ++ lit "}" ++ s ++ lit " d" ++ x) (AInt a x b c)
| X_factors lead s t a b : lx 8 lead s a -> lx 7 false t b -> side_by_side s t -> lx 7 lead (s ++ t) (AOp OHiddenMult a b)
| X_cross lead s t a b : lx 7 lead s a -> lx 6 false t b -> lx 6 lead (s ++ lit "\times " ++ t) (AOp OCross a b)
| X_minus s b : lx 5 false s b -> lx 4 true (lit "-" ++ s) (AOp ONeg (AScalar n0) b)
| X_dot lead s t a b : lx 3 lead s a -> lx 4 false t b -> lx 3 lead (s ++ lit "\cdot " ++ t) (AOp OMult a b)
| X_plus_minus lead s t a b : lx 3 lead s a -> lx 2 false t b -> ends_command t -> lx 2 lead (s ++ lit "\pm" ++ t) (AOp OAddSub a b)
| X_difference lead s t a b : lx 1 lead s a -> lx 2 false t b -> lx 1 lead (s ++ lit "-" ++ t) (AOp OSub a b)
| X_sum lead s t a b : lx 1 lead s a -> lx 0 true t b -> lx 0 lead (s ++ lit "+" ++ t) (AOp OAdd a b).

Definition reads : str -> AST N -> Prop := lx 0 true.

(** The loosest level an expression with this head is read at. *)
Definition tier (a : AST N) : nat :=
  match a with
  | AOp op _ _ =>
      match op with
      | OAdd => 0 | OSub => 1 | OAddSub => 2 | OMult => 3 | ONeg => 4 | OCross => 6 | OHiddenMult => 7
      | OPow | OInv => 8 | OGet => 9 | _ => 10
      end
  | AInt _ _ _ _ => 7
  | _ => 10
  end.
(** Nothing is read with a looser operation inside a tighter one, unless it is
    in brackets (or braces). *)
Lemma reads_level k lead s a : lx k lead s a -> k <= tier a.
Proof.
  induction 1; cbn [tier]; auto with arith.
  destruct op; auto; cbn in H; repeat (destruct H as [H|H]; [discriminate|]); destruct H.
Qed.
Definition grouped (a : AST N) : Prop :=
  match a with
  | AOp op l r =>
      match op with
      | OAdd => 1 <= tier l
      | OSub => 1 <= tier l /\ 2 <= tier r
      | OAddSub => 3 <= tier l /\ 2 <= tier r
      | OMult => 3 <= tier l /\ 4 <= tier r
      | ONeg => 5 <= tier r
      | OCross => 7 <= tier l /\ 6 <= tier r
      | OHiddenMult => 8 <= tier l /\ 7 <= tier r
      | OPow | OInv => 9 <= tier l
      | OGet => 10 <= tier l
      | _ => True
      end
  | _ => True
  end.
Lemma reads_grouped k lead s a : lx k lead s a -> grouped a.
Proof.
  induction 1; cbn [grouped]; auto; repeat match goal with H : lx _ _ _ _ |- _ => apply reads_level in H end; auto.
  destruct op; auto; cbn in H; repeat (destruct H as [H|H]; [discriminate|]); destruct H.
Qed.
End Grammar.
