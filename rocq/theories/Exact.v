(** * Exact: the number operations in exact arithmetic.

    Every Archimedean ordered field [F] (for example the rational numbers),
    extended with the two infinities and NaN of IEEE 754, so that a division by
    zero behaves as in the code.  There is no rounding, no overflow and one
    zero only (so [1/(-0.)] is not modelled).  Functions that a general field does
    not have ([sqrt], [sin], [powf], ...), parsing and printing are arbitrary
    functions given by [lib].  The model of the code ([Maths.v], [Eval.v]) is
    used unchanged at this instance. *)
From Coq Require Import ZArith.
Set Warnings "-notation-overridden,-ambiguous-paths".
From mathcomp Require Import all_ssreflect all_algebra.
From Verif Require Import Base Num.
Import GRing.Theory Order.Theory mathcomp.algebra.ssrnum.Num.Theory.
Set Implicit Arguments.
Unset Strict Implicit.
Unset Printing Implicit Defensive.
Local Open Scope ring_scope.

Section Exact.
Variable F : archiFieldType.

Inductive ext : Type := Fin (x : F) | PInf | NInf | NaN.

(** [+inf] or [-inf] with the sign of [x], NaN for 0. *)
Definition signed_inf (x : F) : ext := if x == 0 then NaN else if 0 < x then PInf else NInf.

Definition ext_opp (a : ext) : ext :=
  match a with Fin x => Fin (- x) | PInf => NInf | NInf => PInf | NaN => NaN end.
Definition ext_add (a b : ext) : ext :=
  match a, b with
  | Fin x, Fin y => Fin (x + y)
  | NaN, _ | _, NaN | PInf, NInf | NInf, PInf => NaN
  | PInf, _ | _, PInf => PInf
  | NInf, _ | _, NInf => NInf
  end.
Definition ext_sub (a b : ext) : ext := ext_add a (ext_opp b).
Definition ext_mul (a b : ext) : ext :=
  match a, b with
  | Fin x, Fin y => Fin (x * y)
  | NaN, _ | _, NaN => NaN
  | Fin x, PInf | PInf, Fin x => signed_inf x
  | Fin x, NInf | NInf, Fin x => signed_inf (- x)
  | PInf, PInf | NInf, NInf => PInf
  | PInf, NInf | NInf, PInf => NInf
  end.
Definition ext_div (a b : ext) : ext :=
  match a, b with
  | Fin x, Fin y => if y == 0 then signed_inf x else Fin (x / y)
  | NaN, _ | _, NaN => NaN
  | Fin _, PInf | Fin _, NInf => Fin 0
  | PInf, Fin y => if 0 <= y then PInf else NInf
  | NInf, Fin y => if 0 <= y then NInf else PInf
  | PInf, PInf | PInf, NInf | NInf, PInf | NInf, NInf => NaN
  end.
Definition ext_abs (a : ext) : ext :=
  match a with Fin x => Fin `|x| | PInf | NInf => PInf | NaN => NaN end.
Definition ext_eqb (a b : ext) : bool :=
  match a, b with
  | Fin x, Fin y => x == y
  | PInf, PInf | NInf, NInf => true
  | _, _ => false
  end.
Definition ext_ltb (a b : ext) : bool :=
  match a, b with
  | Fin x, Fin y => x < y
  | NaN, _ | _, NaN => false
  | PInf, _ | _, NInf => false
  | _, PInf | NInf, _ => true
  end.

(** The integer [z] in the field. *)
Definition of_Z (z : Z) : F :=
  match z with Z0 => 0 | Zpos p => (Pos.to_nat p)%:R | Zneg p => - (Pos.to_nat p)%:R end.
(** The largest natural number not above [x >= 0]. *)
Definition nat_part (x : F) : nat := find (fun n => x < n.+1%:R) (iota 0 (ssrnum.Num.bound x)).
(** Rounding towards zero. *)
Definition trunc_Z (x : F) : Z :=
  if 0 <= x then Z.of_nat (nat_part x) else Z.opp (Z.of_nat (nat_part (- x))).
(** Rounding to the nearest integer, halves away from zero ([f64::round]). *)
Definition round_Z (x : F) : Z :=
  if 0 <= x then Z.of_nat (nat_part (x + 2%:R^-1)) else Z.opp (Z.of_nat (nat_part (2%:R^-1 - x))).
(** [x as i32], [x as usize]: towards zero, saturating. *)
Definition clamp (lo hi z : Z) : Z := Z.max lo (Z.min hi z).
Definition ext_to (lo hi : Z) (a : ext) : Z :=
  match a with Fin x => clamp lo hi (trunc_Z x) | PInf => hi | NInf => lo | NaN => Z0 end.

Record lib : Type := {
  x_sqrt : ext -> ext; x_powf : ext -> ext -> ext;
  x_sin : ext -> ext; x_cos : ext -> ext; x_tan : ext -> ext;
  x_asin : ext -> ext; x_acos : ext -> ext; x_atan : ext -> ext; x_ln : ext -> ext;
  x_probe : ext; x_pi : ext; x_e : ext;
  x_parse : str -> option ext; x_show : ext -> str; x_show_sci : ext -> str
}.

Definition Exact (L : lib) : Num := {|
  T := ext;
  nadd := ext_add; nsub := ext_sub; nmul := ext_mul; ndiv := ext_div; nopp := ext_opp;
  nsqrt := x_sqrt L; nabs := ext_abs;
  nround := fun a => if a is Fin x then Fin (of_Z (round_Z x)) else a;
  npowf := x_powf L;
  nsin := x_sin L; ncos := x_cos L; ntan := x_tan L;
  nasin := x_asin L; nacos := x_acos L; natan := x_atan L; nln := x_ln L;
  neqb := ext_eqb; nltb := ext_ltb;
  nis_nan := fun a => if a is NaN then true else false;
  nis_inf := fun a => match a with PInf | NInf => true | _ => false end;
  nsign_neg := fun a => match a with Fin x => x < 0 | NInf => true | _ => false end;
  nrem1_zero := fun a => if a is Fin x then x == of_Z (trunc_Z x) else false;
  nto_i32 := ext_to (Z.opp (Z.pow 2 31)) (Z.pred (Z.pow 2 31));
  nto_usize := ext_to Z0 (Z.pred (Z.pow 2 64));
  nof_Z := fun z => Fin (of_Z z);
  nprobe := x_probe L; npi := x_pi L; neul := x_e L;
  nparse := x_parse L; nshow := x_show L; nshow_sci := x_show_sci L
|}.
End Exact.
Arguments Fin {F} x.
Arguments PInf {F}.
Arguments NInf {F}.
Arguments NaN {F}.
