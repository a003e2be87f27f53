(** * Num: the number operations the crate uses, as a record.

    The crate computes with [f64] only.  The model is written once against
    this record and used at two instances:
    - [F64 lm]: IEEE binary64 ([F64.v]) with an arbitrary maths library [lm]
      for the functions whose last bit Rust leaves to the platform
      ([sin], [cos], [tan], [asin], [acos], [atan], [ln], [powf]).  This is
      the model of the code.
    - exact arithmetic over a field, extended with infinities and NaN
      ([Exact.v]), to state what the algorithms compute when rounding is
      ignored. *)
From Coq Require Import List NArith ZArith Bool Ascii String SpecFloat.
From Verif Require Import Base F64.
Import ListNotations.
Local Open Scope Z_scope.

Class Num : Type := {
  T : Type;
  nadd : T -> T -> T;          (* + *)
  nsub : T -> T -> T;          (* - *)
  nmul : T -> T -> T;          (* * *)
  ndiv : T -> T -> T;          (* / *)
  nopp : T -> T;               (* unary - *)
  nsqrt : T -> T;              (* f64::sqrt *)
  nabs : T -> T;               (* f64::abs *)
  nround : T -> T;             (* f64::round *)
  npowf : T -> T -> T;         (* f64::powf *)
  nsin : T -> T; ncos : T -> T; ntan : T -> T;
  nasin : T -> T; nacos : T -> T; natan : T -> T;
  nln : T -> T;
  neqb : T -> T -> bool;       (* == *)
  nltb : T -> T -> bool;       (* < *)
  nis_nan : T -> bool;         (* f64::is_nan *)
  nis_inf : T -> bool;         (* f64::is_infinite *)
  nsign_neg : T -> bool;       (* f64::is_sign_negative *)
  nrem1_zero : T -> bool;      (* x % 1. == 0. *)
  nto_i32 : T -> Z;            (* x as i32 *)
  nto_usize : T -> Z;          (* x as usize *)
  nof_Z : Z -> T;              (* integer literals, i as f64 *)
  nprobe : T;                  (* the literal 8.21785 *)
  npi : T; neul : T;           (* std::f64::consts::{PI, E} *)
  nparse : str -> option T;    (* str::parse::<f64> *)
  nshow : T -> str;            (* f64::to_string *)
  nshow_sci : T -> str         (* format!("{:+e}", x) *)
}.

(** Platform maths library: everything Rust does not specify bit for bit. *)
Record Libm : Type := {
  lm_sin : f64 -> f64; lm_cos : f64 -> f64; lm_tan : f64 -> f64;
  lm_asin : f64 -> f64; lm_acos : f64 -> f64; lm_atan : f64 -> f64;
  lm_ln : f64 -> f64; lm_powf : f64 -> f64 -> f64
}.

(** The literal [8.21785] (roots.rs:245). *)
Definition probe64 : f64 := f_of_dec false 821785 (-5).
(** [std::f64::consts::PI] and [E] (basetypes.rs:100-101): the binary64 values
    0x400921FB54442D18 and 0x4005BF0A8B145769. *)
Definition pi64 : f64 := S754_finite false 7074237752028440 (-51).
Definition e64 : f64 := S754_finite false 6121026514868073 (-51).

#[export] Instance F64 (lm : Libm) : Num := {|
  T := f64;
  nadd := fadd; nsub := fsub; nmul := fmul; ndiv := fdiv; nopp := fopp;
  nsqrt := fsqrt; nabs := fabs; nround := fround;
  npowf := lm_powf lm;
  nsin := lm_sin lm; ncos := lm_cos lm; ntan := lm_tan lm;
  nasin := lm_asin lm; nacos := lm_acos lm; natan := lm_atan lm;
  nln := lm_ln lm;
  neqb := feqb; nltb := fltb;
  nis_nan := fis_nan; nis_inf := fis_inf; nsign_neg := fsign_neg;
  nrem1_zero := f_rem1_zero;
  nto_i32 := f_to_i32; nto_usize := f_to_usize; nof_Z := f_of_Z;
  nprobe := probe64; npi := pi64; neul := e64;
  nparse := parse_f64; nshow := show_f64; nshow_sci := show_sci_f64
|}.

Section Derived.
Context {N : Num}.

Definition n0 : T := nof_Z 0.
Definition n1 : T := nof_Z 1.
Definition nm1 : T := nopp (nof_Z 1).

(** [f64::powi]: the algorithm of compiler-rt's [__powidf2] (the function
    Rust's [powi] lowers to): square-and-multiply on [|n|], then the reciprocal
    if [n < 0].  Used at basetypes.rs:261-274, helpers.rs:36-52,
    maths.rs:175, calculus.rs:28,67,81,97,110, roots.rs:155,169,
    special.rs:14.  For the exponents the crate fixes (2, -8, -13, 5, 6,
    10, 11 on base 10 and small exponents on base -1) all correctly behaving
    implementations agree; for [round(prec)] with [prec > 22] this is one
    permitted implementation. *)
Fixpoint powi_pos (a : T) (p : positive) (r : T) : T :=
  match p with
  | xH => nmul r a
  | xO q => powi_pos (nmul a a) q r
  | xI q => powi_pos (nmul a a) q (nmul r a)
  end.

Definition npowi (a : T) (n : Z) : T :=
  match n with
  | Z0 => n1
  | Zpos p => powi_pos a p n1
  | Zneg p => ndiv n1 (powi_pos a p n1)
  end.

(** [10f64.powi(k)] *)
Definition pow10 (k : Z) : T := npowi (nof_Z 10) k.

End Derived.

(** Build-time configuration and character classes.
    - [high_prec], [row_major]: the cargo features of Cargo.toml:28-30;
    - [uni_alpha], [uni_numeric], [uni_white]: [char::is_alphabetic],
      [char::is_numeric] and [char::is_whitespace] outside ASCII (Rust's
      Unicode tables, left arbitrary). *)
Class Env : Type := {
  high_prec : bool;
  row_major : bool;
  uni_alpha : char -> bool;
  uni_numeric : char -> bool;
  uni_white : char -> bool
}.

Section EnvDefs.
Context {En : Env}.

(** lib.rs:142-148: [PREC]. *)
Definition PREC : Z := if high_prec then 13 else 8.

Definition is_ascii (c : char) : bool := N.ltb c 128.

(** [char::is_alphabetic] *)
Definition is_alphabetic (c : char) : bool :=
  if is_ascii c then
    (((65 <=? c) && (c <=? 90)) || ((97 <=? c) && (c <=? 122)))%N%bool
  else uni_alpha c.
(** [char::is_numeric] *)
Definition is_numeric (c : char) : bool :=
  if is_ascii c then is_digit c else uni_numeric c.
(** [char::is_whitespace] *)
Definition is_whitespace (c : char) : bool :=
  if is_ascii c then ((c =? 32) || ((9 <=? c) && (c <=? 13)))%N%bool
  else uni_white c.
End EnvDefs.
