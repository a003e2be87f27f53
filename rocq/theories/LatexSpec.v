(** * LatexSpec: when a LaTeX text is balanced (for C46).

    A small automaton reads the text character by character, the way TeX
    splits it into tokens: a command is a backslash with the letters after it,
    or a backslash with one other character (escaped brackets, line breaks).
    The stack holds what is still open.  An alignment mark [&] is accepted
    directly inside an environment only, as in TeX. *)
From Coq Require Import List NArith Bool String.
From Verif Require Import Base.
Import ListNotations.
Local Open Scope string_scope.
Local Open Scope list_scope.

(** What has been opened: a curly bracket, \left, or \begin{name}. *)
Inductive opened : Type := OBrace | OLeft | OEnv (name : str).
(** Where the reader is: in plain text, inside a command, or inside the name of
    an environment. *)
Inductive mode : Type := Plain | Command (word : str) | EnvName (begins : bool) (name : str).
Definition state : Type := (mode * list opened)%type.

Definition letter (c : char) : bool := ((65 <=? c) && (c <=? 90) || (97 <=? c) && (c <=? 122))%N.

Definition plain (c : char) (st : list opened) : option state :=
  if N.eqb c 92 then Some (Command [], st)
  else if N.eqb c 123 then Some (Plain, OBrace :: st)
  else if N.eqb c 125 then match st with OBrace :: st' => Some (Plain, st') | _ => None end
  else if N.eqb c 38 then match st with OEnv _ :: _ => Some (Plain, st) | _ => None end
  else Some (Plain, st).

Definition step (s : state) (c : char) : option state :=
  let '(m, st) := s in
  match m with
  | Plain => plain c st
  | Command w =>
      if letter c then Some (Command (w ++ [c]), st)
      else if str_eqb w [] then Some (Plain, st)
      else if str_eqb w (lit "left") then plain c (OLeft :: st)
      else if str_eqb w (lit "right") then match st with OLeft :: st' => plain c st' | _ => None end
      else if str_eqb w (lit "begin") then (if N.eqb c 123 then Some (EnvName true [], st) else None)
      else if str_eqb w (lit "end") then (if N.eqb c 123 then Some (EnvName false [], st) else None)
      else plain c st
  | EnvName b n =>
      if N.eqb c 125 then
        if b then Some (Plain, OEnv n :: st)
        else match st with OEnv n' :: st' => if str_eqb n n' then Some (Plain, st') else None | _ => None end
      else Some (EnvName b (n ++ [c]), st)
  end.
Fixpoint run (s : str) (x : state) : option state :=
  match s with
  | [] => Some x
  | c :: t => match step x c with Some y => run t y | None => None end
  end.

(** The commands that open and close. *)
Definition keywords : list str := [lit "left"; lit "right"; lit "begin"; lit "end"].
(** The reader is in plain text, or in a command that cannot become one of
    [keywords] by further letters. *)
Definition calm (m : mode) : bool :=
  match m with
  | Plain => true
  | Command w => (negb (str_eqb w []) && negb (existsb (fun k => starts_with k w) keywords))%bool
  | EnvName _ _ => false
  end.

(** Everything opened is closed again, in the right order: curly brackets,
    \left by \right, \begin{name} by \end{name}; alignment marks are directly
    inside environments. *)
Definition balanced (s : str) : Prop := exists m, run s (Plain, []) = Some (m, []) /\ calm m = true.
(** The text is balanced inside the environment of an export. *)
Definition balanced_line (s : str) : Prop := balanced (lit "\begin{align*}" ++ s ++ lit "\end{align*}").
(** The same in any surrounding. *)
Definition neutral (s : str) : Prop := forall m st, calm m = true ->
  exists m', run s (m, st) = Some (m', st) /\ calm m' = true.

(** The automaton accepts and rejects as expected. *)
Example accepts : balanced (lit "\frac{1}{x_{2}}\left\{\begin{pmatrix}1\\ 2\end{pmatrix}\right\}\pi").
Proof. eexists. split; [vm_compute; reflexivity|reflexivity]. Qed.
Example rejects_brace : run (lit "\frac{1}{x}}") (Plain, []) = None. Proof. reflexivity. Qed.
Example rejects_order : run (lit "\left(\frac{1\right)}") (Plain, []) = None. Proof. reflexivity. Qed.
Example rejects_env : run (lit "\begin{pmatrix}1\end{bmatrix}") (Plain, []) = None. Proof. reflexivity. Qed.
Example rejects_unclosed : ~ balanced (lit "\left(1"). Proof. intros (m & H & _). vm_compute in H. discriminate H. Qed.
Example rejects_mark : run (lit "x &= 1") (Plain, []) = None. Proof. reflexivity. Qed.
Example rejects_inner_mark : run (lit "\begin{pmatrix}\frac{1 & 2}{3}\end{pmatrix}") (Plain, []) = None. Proof. reflexivity. Qed.
