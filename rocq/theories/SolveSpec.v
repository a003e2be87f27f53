(** * SolveSpec: what [eq(...)] promises, in terms of evaluation.

    Only the data types, [outcome] and [set_num] are used from the model. *)
From Coq Require Import List NArith ZArith Bool String Arith Sorting.Permutation Sorting.Sorted.
From Verif Require Import Base F64 Num Types Maths Parser Eval SpecEval CalcSpec.
Import ListNotations.

Section Spec.
Context {N : Num} {En : Env}.
Notation V := (Value N).
Notation equation := (AST N * AST N)%type.

(** The context [c] with the variables [sv] set to the numbers [xs]. *)
Definition set_nums (c : Ctx N) (sv : list str) (xs : list T) : Ctx N :=
  fold_left (fun c p => set_num c (fst p) (snd p)) (combine sv xs) c.

(** How a point is returned: one variable, a scalar; otherwise a vector. *)
Definition as_solution (xs : list T) : V :=
  match xs with [x] => Scalar x | _ => Vector xs end.

(** The equation [l = r] misses by [s] at [c]: the first value of [l - r]. *)
Definition misses_by (c : Ctx N) (e : equation) (s : T) : Prop :=
  exists rest, outcome (AOp OSub (fst e) (snd e)) c (Ok (Scalar s :: rest)).

(** Euclidean length, as the crate computes it. *)
Definition length2 (rs : list T) : T :=
  nsqrt (fold_left (fun s r => nadd s (npowi r 2)) rs n0).

(** [sub] picks some elements of a list, keeping their order; [rest] are the
    others. *)
Inductive split_into {X} : list X -> list X -> list X -> Prop :=
| SI_nil : split_into [] [] []
| SI_pick x l sub rest : split_into l sub rest -> split_into (x :: l) (x :: sub) rest
| SI_leave x l sub rest : split_into l sub rest -> split_into (x :: l) sub (x :: rest).

(** The equations split into those solved and those checked, and the point
    [xs] satisfies both groups up to 10^-PREC. *)
Definition near_solution (eqs : list equation) (sv : list str) (c : Ctx N) (xs : list T) : Prop :=
  exists search check rs ks,
    split_into eqs search check /\ List.length search = List.length sv /\
    Forall2 (misses_by (set_nums c sv xs)) search rs /\ nltb (length2 rs) step_h = true /\
    Forall2 (misses_by (set_nums c sv xs)) check ks /\
    (check = [] \/ nltb (length2 ks) step_h = true).

(** Two values are the same after rounding to [PREC - 2] decimals. *)
Definition same_rounded (v w : V) : bool :=
  value_eqb (value_round (PREC - 2) v) (value_round (PREC - 2) w).

(** [reps]: of the values [found], in order, those that do not agree with an
    earlier chosen one. *)
Inductive representatives : list V -> list V -> Prop :=
| R_nil : representatives [] []
| R_new found reps v : representatives found reps ->
    (forall w, In w reps -> same_rounded v w = false) ->
    representatives (found ++ [v]) (reps ++ [v])
| R_old found reps v w : representatives found reps ->
    In w reps -> same_rounded v w = true ->
    representatives (found ++ [v]) reps.

(** The number solutions are ordered by: the value or its first component. *)
Definition sort_number (v : V) : option T :=
  match v with Scalar x => Some x | Vector (x :: _) => Some x | _ => None end.

(** The selection among distinct values: all if there are at most 10, else 10
    with the smallest absolute value, in increasing order. *)
Definition selection (reps vs : list V) : Prop :=
  (List.length reps <= 10 /\ vs = reps) \/
  (10 < List.length reps /\ List.length vs = 10 /\
   exists rest, Permutation (vs ++ rest) reps /\
     (forall v w x y, In v vs -> In w rest -> sort_number v = Some x -> sort_number w = Some y ->
        nltb (nabs y) (nabs x) = false) /\
     StronglySorted (fun v w => forall x y, sort_number v = Some x -> sort_number w = Some y ->
        nltb y x = false) vs).

(** Lexicographic order on lists of numbers. *)
Inductive lex : list nat -> list nat -> Prop :=
| lex_nil x l : lex [] (x :: l)
| lex_lt_ x y l l' : x < y -> lex (x :: l) (y :: l')
| lex_eq_ x l l' : lex l l' -> lex (x :: l) (x :: l').

(** The [k]-element subsets of [0..m-1], as increasing lists. *)
Definition is_choice (k m : nat) (l : list nat) : Prop :=
  List.length l = k /\ StronglySorted lt l /\ Forall (fun i => i < m) l.
End Spec.
