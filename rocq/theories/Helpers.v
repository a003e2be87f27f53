(** * Helpers: /repo/src/helpers.rs (formatting helpers are in Print.v). *)
From Coq Require Import List NArith ZArith Bool Ascii String.
From Verif Require Import Base Num Types.
Import ListNotations.

(** helpers.rs:62-77 [cart_prod]: the running list of partial tuples is
    extended by every element of the next vector. *)
Definition cart_step {A : Type} (results : list (list A)) (xs : list A) : list (list A) :=
  flat_map (fun r => map (fun el => r ++ [el]) xs) results.
Definition cart_prod {A : Type} (arr : list (list A)) : list (list A) :=
  fold_left cart_step arr [[]].

(** helpers.rs:80-100 [get_args]: split at the commas that are outside every
    kind of bracket.  [buf] is the buffer, [d] the bracket depth (an [i32] in
    Rust; it may go negative). *)
Definition is_open (c : char) : bool := (N.eqb c 40 || N.eqb c 91 || N.eqb c 123)%bool.
Definition is_close (c : char) : bool := (N.eqb c 41 || N.eqb c 93 || N.eqb c 125)%bool.
Fixpoint get_args_go (cs : str) (d : Z) (buf : str) : list str :=
  match cs with
  | [] => [buf]
  | j :: t =>
      let d' := if is_open j then (d + 1)%Z else if is_close j then (d - 1)%Z else d in
      if (Z.eqb d 0 && N.eqb j 44)%bool then buf :: get_args_go t d' []
      else get_args_go t d' (buf ++ [j])
  end.
Definition get_args (cs : str) : list str := get_args_go cs 0 [].
