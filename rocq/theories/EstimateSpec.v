(** * EstimateSpec: what an arithmetic expression means over the real numbers,
    and how far rounding can lead away from it.

    From the model only the data types, the value of a variable and the real
    value of a double ([fR]) are used. *)
From Coq Require Import List Bool Reals SpecFloat.
From Verif Require Import Base F64 Num Types Maths Eval FloatFacts.
Import ListNotations.
Local Open Scope R_scope.

(** The relative error of one operation, and half of the smallest positive
    double. *)
Definition unit_roundoff : R := / 2 ^ 53.
Definition tiny : R := / 2 ^ 1075.

Record estimate : Type := mkEst {
  exact : R;      (** the value over the real numbers *)
  magnitude : R;  (** the same with every term made positive *)
  room : R;       (** the magnitude, with [tiny] added to every product *)
  steps : nat;    (** roundings in a row *)
  peak : R        (** a bound for all intermediate results *) }.

(** The bound for the result. *)
Definition reach (e : estimate) : R := (1 + unit_roundoff) ^ steps e * room e.
(** The bound for the error. *)
Definition error_bound (e : estimate) : R := reach e - magnitude e.

Definition of_double (x : f64) : estimate := mkEst (fR x) (Rabs (fR x)) (Rabs (fR x)) 0 (Rabs (fR x)).
Definition with_peak (e1 e2 : estimate) (v m M : R) (d : nat) : estimate :=
  mkEst v m M d (Rmax (Rmax (peak e1) (peak e2)) ((1 + unit_roundoff) ^ d * M)).
Definition est_add (e1 e2 : estimate) : estimate :=
  with_peak e1 e2 (exact e1 + exact e2) (magnitude e1 + magnitude e2) (room e1 + room e2) (S (Nat.max (steps e1) (steps e2))).
Definition est_neg (e : estimate) : estimate := mkEst (- exact e) (magnitude e) (room e) (steps e) (peak e).
Definition est_mult (e1 e2 : estimate) : estimate :=
  with_peak e1 e2 (exact e1 * exact e2) (magnitude e1 * magnitude e2) (room e1 * room e2 + tiny) (S (steps e1 + steps e2)).
(** Division by a double [y]. *)
Definition est_div (e : estimate) (y : f64) : estimate :=
  with_peak e e (exact e / fR y) (magnitude e / Rabs (fR y)) (room e / Rabs (fR y) + tiny) (S (steps e)).
Definition est_abs (e : estimate) : estimate := mkEst (Rabs (exact e)) (magnitude e) (room e) (steps e) (peak e).

Section Measured.
Variable lm : Libm.
Local Instance NF : Num := F64 lm.

Definition double (x : f64) : Prop := fvalid x = true /\ fis_finite x = true.

(** A number, or a variable whose only value is a number. *)
Inductive number_in (c : Ctx NF) : AST NF -> f64 -> Prop :=
| NI_number x : double x -> number_in c (AScalar (x : @T NF)) x
| NI_variable n v x : lookup_var c n = Some v -> var_values v = [@Scalar NF x] -> double x -> number_in c (AVar n) x.

(** Numbers and variables combined by +, -, *, |.|, brackets, signs, and
    division by a number or variable that is not 0. *)
Inductive measured (c : Ctx NF) : AST NF -> estimate -> Prop :=
| M_number a x : number_in c a x -> measured c a (of_double x)
| M_add a b ea eb : measured c a ea -> measured c b eb -> measured c (AOp OAdd a b) (est_add ea eb)
| M_sub a b ea eb : measured c a ea -> measured c b eb -> measured c (AOp OSub a b) (est_add ea (est_neg eb))
| M_neg z b eb : measured c b eb -> measured c (AOp ONeg (AScalar z) b) (est_neg eb)
| M_mult a b ea eb : measured c a ea -> measured c b eb -> measured c (AOp OMult a b) (est_mult ea eb)
| M_hidden a b ea eb : measured c a ea -> measured c b eb -> measured c (AOp OHiddenMult a b) (est_mult ea eb)
| M_div a b ea y : measured c a ea -> number_in c b y -> fR y <> 0 -> measured c (AOp ODiv a b) (est_div ea y)
| M_abs a z ea : measured c a ea -> measured c (AOp OAbs a (AScalar z)) (est_abs ea)
| M_brackets a z ea : measured c a ea -> measured c (AOp OParenths a (AScalar z)) ea.

(** The same expressions, described without the values of the unknowns [sv]:
    every other variable has one number as its value, and division is only by
    numbers and by such variables. *)
Inductive known (c : Ctx NF) (sv : list str) : AST NF -> f64 -> Prop :=
| K_number x : double x -> known c sv (AScalar (x : @T NF)) x
| K_variable n v x : ~ In n sv -> lookup_var c n = Some v -> var_values v = [@Scalar NF x] -> double x -> known c sv (AVar n) x.
Inductive arithmetic (c : Ctx NF) (sv : list str) : AST NF -> Prop :=
| A_unknown n : In n sv -> arithmetic c sv (AVar n)
| A_known a x : known c sv a x -> arithmetic c sv a
| A_add a b : arithmetic c sv a -> arithmetic c sv b -> arithmetic c sv (AOp OAdd a b)
| A_sub a b : arithmetic c sv a -> arithmetic c sv b -> arithmetic c sv (AOp OSub a b)
| A_neg z b : arithmetic c sv b -> arithmetic c sv (AOp ONeg (AScalar z) b)
| A_mult a b : arithmetic c sv a -> arithmetic c sv b -> arithmetic c sv (AOp OMult a b)
| A_hidden a b : arithmetic c sv a -> arithmetic c sv b -> arithmetic c sv (AOp OHiddenMult a b)
| A_div a b y : arithmetic c sv a -> known c sv b y -> fR y <> 0 -> arithmetic c sv (AOp ODiv a b)
| A_abs a z : arithmetic c sv a -> arithmetic c sv (AOp OAbs a (AScalar z))
| A_brackets a z : arithmetic c sv a -> arithmetic c sv (AOp OParenths a (AScalar z)).

(** The expression as a function over the real numbers, for given values of the
    variables. *)
Fixpoint over_reals (rho : str -> R) (a : AST NF) : R :=
  match a with
  | AScalar x => fR x
  | AVar n => rho n
  | AOp OAdd a b => over_reals rho a + over_reals rho b
  | AOp OSub a b => over_reals rho a - over_reals rho b
  | AOp ONeg _ b => - over_reals rho b
  | AOp OMult a b | AOp OHiddenMult a b => over_reals rho a * over_reals rho b
  | AOp ODiv a b => over_reals rho a / over_reals rho b
  | AOp OAbs a _ => Rabs (over_reals rho a)
  | AOp OParenths a _ => over_reals rho a
  | _ => 0
  end.
(** The numbers that the variables of a context hold. *)
Definition valuation (c : Ctx NF) (n : str) : R :=
  match lookup_var c n with
  | Some v => match var_values v with [@Scalar _ x] => fR x | _ => 0 end
  | None => 0
  end.
(** The same with [x] set to [t]. *)
Definition with_value (rho : str -> R) (x : str) (t : R) (n : str) : R := if str_eqb x n then t else rho n.
End Measured.
