(** * SearchSpec: how [eq(...)] looks for solutions.

    Newton's method with difference quotients, from 2000 starting points.  Of the
    model only the data types, evaluation and the solver of linear equations
    ([gauss_algorithm], see C38 and C60) are used. *)
From Coq Require Import List NArith ZArith Bool Arith.
From Verif Require Import Base F64 Num Types Maths Parser Eval SpecEval CalcSpec SolveSpec.
Import ListNotations.

Section Spec.
Context {N : Num} {En : Env}.
Notation V := (Value N).
Notation equation := (AST N * AST N)%type.

(** [miss c e s]: the equation [e] misses by [s] at the context [c]. *)
Variable miss : Ctx N -> equation -> T -> Prop.
(** The equations to solve and those to check, the unknowns, the context. *)
Variables search check : list equation.
Variable sv : list str.
Variable c : Ctx N.

Definition residuals (eqs : list equation) (xs rs : list T) : Prop := Forall2 (miss (set_nums c sv xs)) eqs rs.
(** The Euclidean length lies strictly between -10^-PREC and 10^-PREC. *)
Definition tiny (rs : list T) : bool := (nltb (nopp step_h) (length2 rs) && nltb (length2 rs) step_h)%bool.
(** [xs] with its [j]-th number increased by 10^-PREC. *)
Definition bump (j : nat) (xs : list T) : list T :=
  firstn j xs ++ match skipn j xs with x :: rest => nadd x step_h :: rest | [] => [] end.
(** [cols], one for each unknown: how much the equations miss if this unknown is
    increased. *)
Definition columns (xs : list T) (cols : list (list T)) : Prop :=
  List.length cols = List.length xs /\ forall j col, nth_error cols j = Some col -> residuals search (bump j xs) col.
(** The linear equations for the step: one row for each equation, with the
    difference quotients for each unknown and minus the residual. *)
Definition newton_rows (rs : list T) (cols : list (list T)) : list (list T) :=
  map (fun p => map (fun col => ndiv (nadd (nth (fst p) col n0) (nmul (snd p) nm1)) step_h) cols ++ [nmul nm1 (snd p)])
      (combine (seq 0 (List.length rs)) rs).
Definition moved (d xs : list T) : list T := map (fun p => nadd (fst p) (snd p)) (combine d xs).
Definition finite (x : T) : bool := negb (nis_inf x || nis_nan x).

Inductive ending : Type := Found (xs : list T) | Lost | Flat.

(** [run n xs e]: at most [n] steps from [xs] end with [e]. *)
Inductive run : nat -> list T -> ending -> Prop :=
| run_out xs : run 0 xs Lost
| run_found n xs rs ks : residuals search xs rs -> tiny rs = true -> residuals check xs ks -> (check = [] \/ tiny ks = true) ->
    run (S n) xs (Found xs)
| run_rejected n xs rs ks : residuals search xs rs -> tiny rs = true -> residuals check xs ks -> check <> [] -> tiny ks = false ->
    run (S n) xs Lost
| run_flat n xs rs cols : residuals search xs rs -> tiny rs = false -> columns xs cols ->
    gauss_algorithm (newton_rows rs cols) = Err InfiniteSolutions -> run (S n) xs Flat
| run_away n xs rs cols d : residuals search xs rs -> tiny rs = false -> columns xs cols ->
    gauss_algorithm (newton_rows rs cols) = Ok d -> forallb finite (moved d xs) = false -> run (S n) xs Lost
| run_next n xs rs cols d e : residuals search xs rs -> tiny rs = false -> columns xs cols ->
    gauss_algorithm (newton_rows rs cols) = Ok d -> forallb finite (moved d xs) = true -> run n (moved d xs) e ->
    run (S n) xs e.

(** All unknowns start at the same integer. *)
Definition start_point (j : Z) : list T := repeat (nof_Z j) (List.length sv).

(** The solutions found from the starting numbers [js], in order.  A starting
    number from which the search is lost is passed over; at one where the linear
    equations have no unique solution the search ends. *)
Inductive searched : list Z -> list V -> Prop :=
| searched_end : searched [] []
| searched_found j js xs found : run 1000 (start_point j) (Found xs) -> searched js found -> searched (j :: js) (as_solution xs :: found)
| searched_lost j js found : run 1000 (start_point j) Lost -> searched js found -> searched (j :: js) found
| searched_flat j js : run 1000 (start_point j) Flat -> searched (j :: js) [].
End Spec.

(** [from], [from + 1], ... ([n] numbers). *)
Fixpoint integers (from : Z) (n : nat) : list Z :=
  match n with O => [] | S n => from :: integers (from + 1) n end.
(** -1000, ..., 999 *)
Definition starting_numbers : list Z := integers (-1000) 2000.

Section Choices.
Context {N : Num} {En : Env}.
Notation V := (Value N).
Notation equation := (AST N * AST N)%type.
(** The elements of [l] at the positions given by [keep]; the first has position
    [i]. *)
Fixpoint picked {X} (keep : nat -> bool) (i : nat) (l : list X) : list X :=
  match l with [] => [] | x :: l => if keep i then x :: picked keep (S i) l else picked keep (S i) l end.
Definition member (l : list nat) (i : nat) : bool := existsb (Nat.eqb i) l.
(** With the equations at the positions [l] solved and the others checked, [found]
    is found. *)
Definition finds (eqs : list equation) (sv : list str) (c : Ctx N) (l : list nat) (found : list V) : Prop :=
  searched misses_by (picked (member l) 0 eqs) (picked (fun i => negb (member l i)) 0 eqs) sv c starting_numbers found.
End Choices.
