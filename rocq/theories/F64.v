(** * F64: IEEE-754 binary64 as used by the crate ([f64]).

    [f64] is [SpecFloat.spec_float] of the Coq standard library at precision
    53 and maximal exponent 1024 (the specification that Coq's own primitive
    floats are checked against).  It has a single NaN: the sign and payload of
    a NaN are not observable through anything the crate does ([is_sign_negative]
    is only reached when [b % 1. == 0.], hence never on a NaN, and [Display]
    prints [NaN] without a sign).

    The definitions below model the [std] functions the crate calls; the
    citations say where it calls them. *)
From Coq Require Import List NArith ZArith Bool Ascii String Lia SpecFloat.
From Verif Require Import Base.
Import ListNotations.
Local Open Scope Z_scope.

Notation f64 := spec_float.

Definition prec64 : Z := 53.
Definition emax64 : Z := 1024.

Definition fvalid (x : f64) : bool := valid_binary prec64 emax64 x.

(** Arithmetic operators [+ - * /] and [f64::sqrt] (round to nearest even). *)
Definition fadd : f64 -> f64 -> f64 := SFadd prec64 emax64.
Definition fsub : f64 -> f64 -> f64 := SFsub prec64 emax64.
Definition fmul : f64 -> f64 -> f64 := SFmul prec64 emax64.
Definition fdiv : f64 -> f64 -> f64 := SFdiv prec64 emax64.
Definition fsqrt : f64 -> f64 := SFsqrt prec64 emax64.
Definition fopp : f64 -> f64 := SFopp.
Definition fabs : f64 -> f64 := SFabs.

(** [==], [<] and [partial_cmp] on [f64]. *)
Definition feqb : f64 -> f64 -> bool := SFeqb.
Definition fltb : f64 -> f64 -> bool := SFltb.

Definition fis_nan (x : f64) : bool := match x with S754_nan => true | _ => false end.
Definition fis_inf (x : f64) : bool := match x with S754_infinity _ => true | _ => false end.
Definition fis_finite (x : f64) : bool :=
  match x with S754_zero _ | S754_finite _ _ _ => true | _ => false end.

(** [f64::is_sign_negative] (maths.rs:90), on non-NaN values. *)
Definition fsign_neg (x : f64) : bool :=
  match x with
  | S754_zero s | S754_infinity s | S754_finite s _ _ => s
  | S754_nan => false
  end.

(** [z as f64] for an integer [z] (roots.rs:289: [j as f64]). *)
Definition f_of_Z (z : Z) : f64 := binary_normalize prec64 emax64 z 0 false.

(** Truncation of a finite value to an integer (magnitude only). *)
Definition mag_trunc (m : positive) (e : Z) : Z :=
  if e <? 0 then Z.pos m / 2 ^ (- e) else Z.pos m * 2 ^ e.

(** Truncation toward zero; [None] for infinities and NaN. *)
Definition f_trunc (x : f64) : option Z :=
  match x with
  | S754_zero _ => Some 0
  | S754_finite s m e => Some (if s then - mag_trunc m e else mag_trunc m e)
  | _ => None
  end.

(** Rust's saturating float-to-integer [as] cast to the range [lo..hi]. *)
Definition f_cast (lo hi : Z) (x : f64) : Z :=
  match x with
  | S754_nan => 0
  | S754_infinity s => if s then lo else hi
  | S754_zero _ => 0
  | S754_finite s m e =>
      let t := if s then - mag_trunc m e else mag_trunc m e in
      Z.max lo (Z.min hi t)
  end.

(** [x as i32] (maths/cross_pow.rs:56). *)
Definition f_to_i32 : f64 -> Z := f_cast (-2147483648) 2147483647.
(** [x as usize] on a 64-bit target (maths.rs:93,96). *)
Definition f_to_usize : f64 -> Z := f_cast 0 18446744073709551615.

(** [x % 1. == 0.] (maths.rs:90).  [inf % 1.] and [NaN % 1.] are NaN. *)
Definition f_rem1_zero (x : f64) : bool :=
  match x with
  | S754_zero _ => true
  | S754_finite _ m e =>
      if e <? 0 then Z.eqb (Z.pos m mod 2 ^ (- e)) 0 else true
  | _ => false
  end.

(** [f64::round]: to the nearest integer, half-way cases away from zero
    (basetypes.rs:261-274, helpers.rs:36-52, maths/cross_pow.rs:40).  The sign of a zero result is the sign of the
    argument. *)
Definition fround (x : f64) : f64 :=
  match x with
  | S754_finite s m e =>
      if e <? 0 then
        let d := 2 ^ (- e) in
        let q := (2 * Z.pos m + d) / (2 * d) in
        match q with
        | Z.pos p => binary_normalize prec64 emax64 (if s then Z.neg p else Z.pos p) 0 s
        | _ => S754_zero s
        end
      else x
  | _ => x
  end.

Definition f0 : f64 := S754_zero false.
Definition f1 : f64 := f_of_Z 1.

(** ** [f64::from_str] (parser.rs:54)

    The grammar of [core::num::dec2flt]: an optional sign, then [inf],
    [infinity] or [nan] (any case), or a decimal number with an optional
    fraction and an optional exponent; the value is the binary64 nearest to the
    decimal number, ties to even. *)

Definition is_digit (c : char) : bool := (48 <=? c)%N && (c <=? 57)%N.
Definition digit_val (c : char) : Z := Z.of_N c - 48.

Fixpoint span_digits (s : str) : str * str :=
  match s with
  | c :: t => if is_digit c then let '(a, b) := span_digits t in (c :: a, b) else ([], s)
  | [] => ([], [])
  end.

Definition digits_val (ds : str) : Z :=
  fold_left (fun acc c => 10 * acc + digit_val c) ds 0.

(** [num / den] (both positive) correctly rounded to binary64 with sign [s]:
    one division step of [SFdiv] on unbounded integers. *)
Definition f_of_ratio (s : bool) (num den : positive) : f64 :=
  let '(mz, ez, lz) := SFdiv_core_binary prec64 emax64 (Z.pos num) 0 (Z.pos den) 0 in
  binary_round_aux prec64 emax64 s mz ez lz.

(** [m * 10^e] correctly rounded. *)
Definition f_of_dec (s : bool) (m : Z) (e : Z) : f64 :=
  match m with
  | Z.pos p =>
      if e <? 0 then f_of_ratio s p (Z.to_pos (10 ^ (- e)))
      else f_of_ratio s (p * Z.to_pos (10 ^ e)) 1
  | _ => S754_zero s
  end.

Definition parse_exp (s : str) : option Z :=
  match s with
  | [] => Some 0
  | c :: t =>
      if (N.eqb c 101 || N.eqb c 69)%bool then (* e E *)
        let '(neg, t) :=
          match t with
          | d :: t' => if N.eqb d 45 then (true, t') else if N.eqb d 43 then (false, t') else (false, t)
          | [] => (false, t)
          end in
        let '(ds, rest) := span_digits t in
        match ds, rest with
        | _ :: _, [] => Some (if neg then - digits_val ds else digits_val ds)
        | _, _ => None
        end
      else None
  end.

Definition lower (c : char) : char := (if (65 <=? c) && (c <=? 90) then c + 32 else c)%N.

Definition parse_unsigned (sg : bool) (s : str) : option f64 :=
  let l := map lower s in
  if (str_eqb l (lit "inf") || str_eqb l (lit "infinity"))%bool then Some (S754_infinity sg)
  else if str_eqb l (lit "nan") then Some S754_nan
  else
    let '(ip, r1) := span_digits s in
    let '(fp, r2) :=
      match r1 with
      | c :: t => if N.eqb c 46 then span_digits t else ([], r1)
      | [] => ([], r1)
      end in
    match ip ++ fp with
    | [] => None
    | ds =>
        match parse_exp r2 with
        | None => None
        | Some e => Some (f_of_dec sg (digits_val ds) (e - Z.of_nat (List.length fp)))
        end
    end.

Definition parse_f64 (s : str) : option f64 :=
  match s with
  | [] => None
  | c :: t =>
      if N.eqb c 45 then match t with [] => None | _ => parse_unsigned true t end
      else if N.eqb c 43 then match t with [] => None | _ => parse_unsigned false t end
      else parse_unsigned false s
  end.

(** ** [Display] / [LowerExp] for [f64] (helpers.rs:37-57, basetypes.rs:315,330,338)

    Rust prints the shortest decimal digit string that reads back as the same
    [f64]; among those of minimal length the one nearest to the exact value
    (upwards on a tie).  A candidate is a pair [(c, p)] standing for
    [c * 10^p]. *)

(** Decimal digits of a non-negative integer, most significant first. *)
Fixpoint digits_fuel (fuel : nat) (z : Z) (acc : str) : str :=
  match fuel with
  | O => acc
  | S f =>
      let acc' := Z.to_N (48 + z mod 10) :: acc in
      if z <? 10 then acc' else digits_fuel f (z / 10) acc'
  end.
Definition show_nonneg (z : Z) : str := digits_fuel (S (Z.to_nat (Z.log2 z))) z [].
(** [i32::to_string], [usize::to_string] ... *)
Definition show_Z (z : Z) : str :=
  if z <? 0 then 45%N :: show_nonneg (- z) else show_nonneg z.

Definition zeros (z : Z) : str := repeat 48%N (Z.to_nat z).

(** [c * 10^p] in plain decimal notation (no exponent). *)
Definition render_dec (c p : Z) : str :=
  let ds := show_nonneg c in
  let len := Z.of_nat (List.length ds) in
  if 0 <=? p then ds ++ zeros p
  else if - p <? len then
    firstn (Z.to_nat (len + p)) ds ++ [46%N] ++ skipn (Z.to_nat (len + p)) ds
  else [48%N; 46%N] ++ zeros (- p - len) ++ ds.

(** [c * 10^p] in scientific notation: one digit before the point. *)
Definition render_sci (c p : Z) : str :=
  let ds := show_nonneg c in
  let len := Z.of_nat (List.length ds) in
  match ds with
  | [] => []
  | [d] => [d]
  | d :: t => d :: 46%N :: t
  end ++ [101%N] ++ show_Z (len - 1 + p).

(** Drop trailing zeros of the digit string. *)
Fixpoint strip_zeros (fuel : nat) (c p : Z) : Z * Z :=
  match fuel with
  | O => (c, p)
  | S f => if (10 <=? c) && (c mod 10 =? 0) then strip_zeros f (c / 10) (p + 1) else (c, p)
  end.

(** Exact value of a finite magnitude as a ratio. *)
Definition mag_ratio (m : positive) (e : Z) : Z * Z :=
  if e <? 0 then (Z.pos m, 2 ^ (- e)) else (Z.pos m * 2 ^ e, 1).

(** Decimal exponent [k] with [10^(k-1) <= num/den < 10^k]. *)
Definition dec_exp (num den : Z) : Z :=
  if den <=? num then Z.of_nat (List.length (show_nonneg (num / den)))
  else 1 - Z.of_nat (List.length (show_nonneg ((den - 1) / num))).

Definition f_same (x y : f64) : bool :=
  match x, y with
  | S754_finite s m e, S754_finite s' m' e' =>
      (Bool.eqb s s' && Pos.eqb m m' && Z.eqb e e')%bool
  | S754_zero s, S754_zero s' => Bool.eqb s s'
  | S754_infinity s, S754_infinity s' => Bool.eqb s s'
  | S754_nan, S754_nan => true
  | _, _ => false
  end.

(** Does the candidate read back as the positive value [m * 2^e]? *)
Definition reads_back (m : positive) (e : Z) (cp : Z * Z) : bool :=
  match parse_f64 (render_dec (fst cp) (snd cp)) with
  | Some y => f_same (S754_finite false m e) y
  | None => false
  end.

(** The two neighbours of [num/den] with [n] significant digits, nearest
    first. *)
Definition candidates (num den k n : Z) : list (Z * Z) :=
  let '(a, b) := if n - k <? 0 then (num, den * 10 ^ (k - n)) else (num * 10 ^ (n - k), den) in
  let lo := a / b in
  let hi := if a mod b =? 0 then lo else lo + 1 in
  map (fun c => strip_zeros (Z.to_nat n) c (k - n))
      (if b <=? 2 * (a mod b) then [hi; lo] else [lo; hi]).

(** The exact decimal expansion (never needed in practice: 17 digits always
    suffice; it makes the search total). *)
Definition exact_dec (m : positive) (e : Z) : Z * Z :=
  if e <? 0 then (Z.pos m * 5 ^ (- e), e) else (Z.pos m * 2 ^ e, 0).

Fixpoint search_digits (fuel : nat) (m : positive) (e : Z) (num den k n : Z) : Z * Z :=
  match fuel with
  | O => exact_dec m e
  | S f => match find (reads_back m e) (candidates num den k n) with
           | Some cp => cp
           | None => search_digits f m e num den k (n + 1)
           end
  end.

Definition shortest (m : positive) (e : Z) : Z * Z :=
  let '(num, den) := mag_ratio m e in
  search_digits 17 m e num den (dec_exp num den) 1.

(** [x.to_string()] *)
Definition show_f64 (x : f64) : str :=
  match x with
  | S754_nan => lit "NaN"
  | S754_infinity s => (if s then [45%N] else []) ++ lit "inf"
  | S754_zero s => (if s then [45%N] else []) ++ [48%N]
  | S754_finite s m e =>
      (if s then [45%N] else []) ++
      let '(c, p) := shortest m e in render_dec c p
  end.

(** [format!("{:+e}", x)] (helpers.rs:37,43) *)
Definition show_sci_f64 (x : f64) : str :=
  match x with
  | S754_nan => lit "NaN"
  | S754_infinity s => (if s then [45%N] else [43%N]) ++ lit "inf"
  | S754_zero s => (if s then [45%N] else [43%N]) ++ lit "0e0"
  | S754_finite s m e =>
      (if s then [45%N] else [43%N]) ++
      let '(c, p) := shortest m e in render_sci c p
  end.
