(** * Toy: a concrete build of the crate, used only to exhibit examples.

    The maths library is a stub (the identity, and exact integer powers); the
    theorems hold for every library. *)
From Coq Require Import List NArith ZArith Bool String SpecFloat.
From Verif Require Import Base F64 Num Types Maths Parser Eval.
Import ListNotations.

Definition stub : Libm := {|
  lm_sin := fun x => x; lm_cos := fun x => x; lm_tan := fun x => x;
  lm_asin := fun x => x; lm_acos := fun x => x; lm_atan := fun x => x;
  lm_ln := fun x => x; lm_powf := fun x _ => x |}.
Definition toy : Libm := {|
  lm_sin := fun x => x; lm_cos := fun x => x; lm_tan := fun x => x;
  lm_asin := fun x => x; lm_acos := fun x => x; lm_atan := fun x => x;
  lm_ln := fun x => x;
  lm_powf := fun a b => @npowi (F64 stub) a (f_to_i32 b) |}.
Definition NT : Num := F64 toy.
(** Default features. *)
Definition ET : Env := {| high_prec := false; row_major := false;
  uni_alpha := fun _ => false; uni_numeric := fun _ => false; uni_white := fun _ => false |}.
(** With the row-major feature. *)
Definition ETrow : Env := {| high_prec := false; row_major := true;
  uni_alpha := fun _ => false; uni_numeric := fun _ => false; uni_white := fun _ => false |}.

Definition num (z : Z) : @T NT := @nof_Z NT z.
Definition ns (l : list Z) : list (@T NT) := map num l.
Definition sc (z : Z) : Value NT := Scalar (num z).
Definition ve (l : list Z) : Value NT := Vector (ns l).
Definition ma (l : list (list Z)) : Value NT := Matrix (map ns l).

(** Deciding equality of outcomes on concrete values (so that examples can be
    checked by computation). *)
Lemma f_same_eq x y : f_same x y = true -> x = y.
Proof.
  destruct x as [s|s| |s m e], y as [s'|s'| |s' m' e']; cbn; try discriminate; intros H; auto.
  - apply eqb_prop in H; congruence.
  - apply eqb_prop in H; congruence.
  - apply andb_true_iff in H as [H H3]. apply andb_true_iff in H as [H1 H2].
    apply eqb_prop in H1. apply Pos.eqb_eq in H2. apply Z.eqb_eq in H3. congruence.
Qed.
Lemma list_eqb_eq {A} (e : A -> A -> bool) (He : forall x y, e x y = true -> x = y) a b :
  list_eqb e a b = true -> a = b.
Proof.
  revert b; induction a as [|x a IH]; intros [|y b]; cbn; try discriminate; auto.
  intros H; apply andb_true_iff in H as [H1 H2]. f_equal; auto.
Qed.
Definition val_same {lm} (a b : Value (F64 lm)) : bool :=
  match a, b with
  | Scalar x, Scalar y => f_same x y
  | Vector x, Vector y => list_eqb f_same x y
  | Matrix x, Matrix y => list_eqb (list_eqb f_same) x y
  | _, _ => false
  end.
Lemma val_same_eq {lm} (a b : Value (F64 lm)) : val_same a b = true -> a = b.
Proof.
  destruct a, b; cbn; try discriminate; intros H; f_equal.
  - apply (list_eqb_eq (list_eqb f_same)); auto. intros x y; apply list_eqb_eq, f_same_eq.
  - apply (list_eqb_eq f_same); auto using f_same_eq.
  - now apply f_same_eq.
Qed.
Definition res_same {lm} {E} (r : res E (list (Value (F64 lm)))) (l : list (Value (F64 lm))) : bool :=
  match r with Ok l' => list_eqb val_same l' l | _ => false end.
Lemma res_same_ok {lm} {E} (r : res E (list (Value (F64 lm)))) l : res_same r l = true -> r = Ok l.
Proof.
  destruct r; cbn; try discriminate. intros H. f_equal. revert H. apply list_eqb_eq, val_same_eq.
Qed.
Definition val_ok {lm} {E} (r : res E (Value (F64 lm))) (v : Value (F64 lm)) : bool :=
  match r with Ok v' => val_same v' v | _ => false end.
Lemma val_ok_eq {lm} {E} (r : res E (Value (F64 lm))) v : val_ok r v = true -> r = Ok v.
Proof. destruct r; cbn; try discriminate. intros H. f_equal. now apply val_same_eq. Qed.
Definition is_panic {E A} (r : res E A) : bool := match r with Panic => true | _ => false end.
Lemma is_panic_eq {E A} (r : res E A) : is_panic r = true -> r = Panic.
Proof. destruct r; cbn; congruence. Qed.
Definition err_of {E A} (r : res E A) : option E := match r with Err e => Some e | _ => None end.
Lemma err_of_eq {E A} (r : res E A) e : err_of r = Some e -> r = Err e.
Proof. destruct r; cbn; congruence. Qed.
