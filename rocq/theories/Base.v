(** * Base: outcomes, strings and slices shared by every part of the model.

    Nothing here models a particular function of /repo; it fixes how Rust's
    [Result], [panic!], indexing and [String] are represented. *)
From Coq Require Import List NArith ZArith Bool Ascii String Lia.
Import ListNotations.
Set Implicit Arguments.

(** The result of running a piece of Rust code.
    - [Ok a] / [Err e]: the two constructors of [Result<A, E>];
    - [Panic]: the code panics (index out of bounds, [unwrap] on [None],
      [usize] underflow ...);
    - [Fuel]: the model ran out of fuel, i.e. this many levels of recursion
      (or loop iterations) were not enough.  A program diverges in the model
      iff every amount of fuel yields [Fuel]. *)
Inductive res (E A : Type) : Type :=
| Ok (a : A)
| Err (e : E)
| Panic
| Fuel.
Arguments Ok {E A} a.
Arguments Err {E A} e.
Arguments Panic {E A}.
Arguments Fuel {E A}.

(** Rust's [?] operator. *)
Definition bind {E A B : Type} (r : res E A) (f : A -> res E B) : res E B :=
  match r with
  | Ok a => f a
  | Err e => Err e
  | Panic => Panic
  | Fuel => Fuel
  end.

Notation "'do' x <- e ; f" := (bind e (fun x => f))
  (at level 200, x pattern, e at level 100, f at level 200, right associativity).

(** [Result::map] *)
Definition rmap {E A B : Type} (f : A -> B) (r : res E A) : res E B :=
  bind r (fun a => Ok (f a)).

(** [?] with a [From] conversion on the error type. *)
Definition map_err {E F A : Type} (f : E -> F) (r : res E A) : res F A :=
  match r with
  | Ok a => Ok a
  | Err e => Err (f e)
  | Panic => Panic
  | Fuel => Fuel
  end.

(** [Option::unwrap] (and [v\[i\]] through [nth_error]): panics on [None]. *)
Definition unwrap {E A : Type} (o : option A) : res E A :=
  match o with Some a => Ok a | None => Panic end.

(** [v\[i\]]: panics when out of bounds. *)
Definition idx {E A : Type} (l : list A) (i : nat) : res E A :=
  unwrap (nth_error l i).

(** A loop that pushes one result per element and leaves early on the first
    error: [for x in l { out.push(f(x)?) }] or
    [l.iter().map(f).collect::<Result<Vec<_>,_>>()]. *)
Fixpoint mapM {E A B : Type} (f : A -> res E B) (l : list A) : res E (list B) :=
  match l with
  | [] => Ok []
  | x :: t => do y <- f x; do ys <- mapM f t; Ok (y :: ys)
  end.

(** A loop that appends a vector of results per element. *)
Definition concatM {E A B : Type} (f : A -> res E (list B)) (l : list A)
  : res E (list B) :=
  do ls <- mapM f l; Ok (List.concat ls).

(** A loop threading an accumulator. *)
Fixpoint foldM {E A S : Type} (f : S -> A -> res E S) (l : list A) (s : S)
  : res E S :=
  match l with
  | [] => Ok s
  | x :: t => do s' <- f s x; foldM f t s'
  end.

(** [&l\[a..b\]]: panics if [a > b] or [b > l.len()]. *)
Definition slice {E A : Type} (l : list A) (a b : nat) : res E (list A) :=
  if (Nat.leb a b && Nat.leb b (List.length l))%bool
  then Ok (firstn (b - a) (skipn a l)) else Panic.

(** ** Strings

    A Rust [String] / [&[char]] is a list of Unicode scalar values.  Rust's
    byte indices ([str::len], [str::find]) are recovered through
    [utf8_len]. *)
Definition char := N.
Definition str := list char.

Definition lit (s : string) : str :=
  map N_of_ascii (list_ascii_of_string s).

Definition chr (a : ascii) : char := N_of_ascii a.

Definition utf8_len (c : char) : nat :=
  if N.ltb c 128 then 1 else if N.ltb c 2048 then 2 else if N.ltb c 65536 then 3 else 4.

(** [str::len()]: number of UTF-8 bytes. *)
Definition byte_len (s : str) : nat :=
  fold_right (fun c n => utf8_len c + n) 0 s.

Fixpoint str_eqb (a b : str) : bool :=
  match a, b with
  | [], [] => true
  | x :: a', y :: b' => (N.eqb x y && str_eqb a' b')%bool
  | _, _ => false
  end.

Fixpoint starts_with (s p : str) : bool :=
  match p, s with
  | [], _ => true
  | y :: p', x :: s' => (N.eqb x y && starts_with s' p')%bool
  | _ :: _, [] => false
  end.

(** [s.contains(c)] for a one-character pattern. *)
Definition contains (s : str) (c : char) : bool := existsb (N.eqb c) s.

(** The part of [s] before the first [c] ([s.split(c).nth(0).unwrap()]). *)
Fixpoint before (c : char) (s : str) : str :=
  match s with
  | [] => []
  | x :: t => if N.eqb x c then [] else x :: before c t
  end.

(** The part of [s] after the first [c]; [None] if there is none. *)
Fixpoint after (c : char) (s : str) : option str :=
  match s with
  | [] => None
  | x :: t => if N.eqb x c then Some t else after c t
  end.

(** [v.join(sep)] *)
Fixpoint join (sep : str) (l : list str) : str :=
  match l with
  | [] => []
  | [x] => x
  | x :: t => x ++ sep ++ join sep t
  end.

Definition spaces (n : nat) : str := repeat 32%N n.

(** ** Basic facts used everywhere *)

Lemma str_eqb_refl a : str_eqb a a = true.
Proof. induction a as [|x a IH]; cbn; [reflexivity|]. now rewrite N.eqb_refl. Qed.

Lemma str_eqb_eq a b : str_eqb a b = true <-> a = b.
Proof.
  split; [|intros ->; apply str_eqb_refl].
  revert b; induction a as [|x a IH]; intros [|y b]; cbn; try congruence.
  intros H; apply andb_true_iff in H as [H1 H2].
  apply N.eqb_eq in H1; apply IH in H2; congruence.
Qed.

Lemma str_eqb_neq a b : str_eqb a b = false <-> a <> b.
Proof.
  split.
  - intros H E; subst; rewrite str_eqb_refl in H; discriminate.
  - intros H; destruct (str_eqb a b) eqn:E; [|reflexivity].
    apply str_eqb_eq in E; contradiction.
Qed.

Lemma str_eqb_spec a b : reflect (a = b) (str_eqb a b).
Proof.
  destruct (str_eqb a b) eqn:E; constructor.
  - now apply str_eqb_eq. - now apply str_eqb_neq.
Qed.

Lemma str_eqb_sym a b : str_eqb a b = str_eqb b a.
Proof.
  destruct (str_eqb_spec a b) as [->|H]; [now rewrite str_eqb_refl|].
  symmetry; apply str_eqb_neq; congruence.
Qed.

Lemma str_eq_dec (a b : str) : {a = b} + {a <> b}.
Proof. destruct (str_eqb_spec a b); [left|right]; assumption. Defined.
