(** * RepoTests: the repository's own tests, run on the model.

    /repo/src/tests.rs:3-632.  Not part of any property: these examples
    compare the model with what the authors of the crate observe of the
    program.  Values are compared with the crate's [PartialEq] ([value_eqb]),
    as [assert_eq!] does.  The searches for solutions (tests.rs:447-599) and
    [calculus_eval3] (it needs [exp]) are left out here because they compute
    for minutes without the virtual machine (see DESIGN.md), except the two
    which end early. *)
From Coq Require Import List NArith ZArith Bool String SpecFloat.
From Verif Require Import Base F64 Num Types Maths Parser Eval Print Toy.
Import ListNotations.
Local Open Scope string_scope.

(** A maths library with a usable [powf]: integer exponents by [powi], others
    as exp(b * ln a) with series. *)
Definition one := @num 1.
Fixpoint exp_series (n : nat) (k : Z) (x term acc : f64) : f64 :=
  match n with
  | O => acc
  | S n => let t := fdiv (fmul term x) (num k) in exp_series n (k + 1)%Z x t (fadd acc t)
  end.
Fixpoint squares (n : nat) (x : f64) : f64 := match n with O => x | S n => squares n (fmul x x) end.
(** exp(x) = exp(x/1024)^1024 *)
Definition exp64 (x : f64) : f64 := squares 10 (exp_series 20 1 (fdiv x (num 1024)) one one).
(** ln by Newton steps for exp(y) = x: y + x/exp(y) - 1. *)
Fixpoint ln_steps (n : nat) (x y : f64) : f64 :=
  match n with O => y | S n => ln_steps n x (fadd y (fsub (fdiv x (exp64 y)) one)) end.
Definition ln64 (x : f64) : f64 := ln_steps 40 x f0.
Definition lib : Libm := {|
  lm_sin := fun x => x; lm_cos := fun x => x; lm_tan := fun x => x;
  lm_asin := fun x => x; lm_acos := fun x => x; lm_atan := fun x => x;
  lm_ln := ln64;
  lm_powf := fun a b => if @nrem1_zero NT b then @npowi NT a (f_to_i32 b) else exp64 (fmul b (ln64 a)) |}.
#[local] Instance NL : Num := F64 lib.
#[local] Instance EL : Env := ET.

(** Numbers: the decimal n/d. *)
Definition dec (n d : Z) : @T NL := fdiv (num n) (num d).
Definition z (n : Z) : @T NL := num n.
Definition S_ (n : Z) : Value NL := Scalar (z n).
Definition V_ (l : list Z) : Value NL := Vector (map z l).
Definition M_ (m : list (list Z)) : Value NL := Matrix (map (map z) m).
Definition var (n : string) (v : Value NL) : MVar NL := mkVar (lit n) [v].
Definition fn (n : string) (body : string) (ps : list string) : list (MFun NL) :=
  match parse (lit body) with Ok b => [mkFun (lit n) b (map lit ps)] | _ => [] end.
Fixpoint equal_values (a b : list (Value NL)) : bool :=
  match a, b with
  | [], [] => true
  | x :: a, y :: b => (value_eqb x y && equal_values a b)%bool
  | _, _ => false
  end.
(** quick_eval gives these values ([round p] first if [p] is given). *)
Definition gives (s : string) (c : Ctx NL) (p : option Z) (vs : list (Value NL)) : bool :=
  match quick_eval 40 (lit s) c with
  | Ok ws => equal_values (match p with Some p => values_round p ws | None => ws end) vs
  | _ => false
  end.
(** ... whose first one is this *)
Definition first (s : string) (c : Ctx NL) (p : option Z) (v : Value NL) : bool :=
  match quick_eval 40 (lit s) c with
  | Ok (w :: _) => value_eqb (match p with Some p => value_round p w | None => w end) v
  | _ => false
  end.
Definition fails (s : string) (c : Ctx NL) (e : QuickEvalError) : Prop := quick_eval 40 (lit s) c = Err e.
Definition vs (l : list (MVar NL)) : Ctx NL := mkCtx l [].
Notation none := (@ctx_empty NL).

(** tests.rs:3-113 *)
Example easy_eval1 : first "3*3" none None (S_ 9) = true. Proof. vm_compute. reflexivity. Qed.
Example easy_eval2 : first "3-4-5" none None (S_ (-6)) = true. Proof. vm_compute. reflexivity. Qed.
Example easy_eval3 : first "3^2^4" none None (S_ 43046721) = true. Proof. vm_compute. reflexivity. Qed.
Example easy_eval4 : first "[[3, 4, 5], [1, 2, 3], [5, 6, 7]]" none None (M_ [[3;1;5];[4;2;6];[5;3;7]]%Z) = true. Proof. vm_compute. reflexivity. Qed.
Example easy_eval5 : first "[3, 3/4, 6]" none None (Vector [z 3; dec 75 100; z 6]) = true. Proof. vm_compute. reflexivity. Qed.
Example easy_eval6 : first "root(8, 3)" none (Some 9%Z) (S_ 2) = true. Proof. vm_compute. reflexivity. Qed.
Example easy_eval7 : gives "&root(9, 2)" none (Some 9%Z) [S_ 3; S_ (-3)] = true. Proof. vm_compute. reflexivity. Qed.
Example easy_eval8 : gives "2*(&sqrt(9))" none None [S_ 6; S_ (-6)] = true. Proof. vm_compute. reflexivity. Qed.
Example easy_eval9 : gives "[{3, 5}, 0, 0]" none None [V_ [3;0;0]; V_ [5;0;0]]%Z = true. Proof. vm_compute. reflexivity. Qed.
Example easy_eval10 : first "A*B" (vs [var "A" (M_ [[6;1;13;8];[4;3;9;10];[4;0;14;8]]%Z); var "B" (Matrix [[z 3; z 0];[z 1; z 1];[z 0; z 6];[dec 25 10; z 2]])])
  None (M_ [[39;95];[40;77];[32;100]]%Z) = true. Proof. vm_compute. reflexivity. Qed.
Example easy_eval11 : match parse (lit "-1") with Ok a => str_eqb (ast_latex a) (lit "-1") | _ => false end = true. Proof. vm_compute. reflexivity. Qed.
Example easy_eval12 : first "inv(A)" (vs [var "A" (M_ [[2]]%Z)]) None (Matrix [[dec 5 10]]) = true. Proof. vm_compute. reflexivity. Qed.

(** tests.rs:115-376 *)
Example medium_eval1 : first "3x" (vs [var "x" (S_ 3)]) None (S_ 9) = true. Proof. vm_compute. reflexivity. Qed.
Example medium_eval2 : first "3A" (vs [var "A" (V_ [3;5;8]%Z)]) None (V_ [9;15;24]%Z) = true. Proof. vm_compute. reflexivity. Qed.
Example medium_eval3 : first "B*A" (vs [var "A" (V_ [3;5;8]%Z); var "B" (M_ [[2;0;0];[0;2;0];[0;0;1]]%Z)]) None (V_ [6;10;8]%Z) = true. Proof. vm_compute. reflexivity. Qed.
Example medium_eval4 : first "A*B" (vs [var "A" (M_ [[3;5;7];[4;8;2];[1;9;2]]%Z); var "B" (M_ [[7;9;10];[1;55;8];[22;9;2]]%Z)]) None
  (M_ [[180;365;84];[80;494;108];[60;522;86]]%Z) = true. Proof. vm_compute. reflexivity. Qed.
Example medium_eval5 : first "((3*3))" none None (S_ 9) = true. Proof. vm_compute. reflexivity. Qed.
Example medium_eval6 : fails "[[3, 0, 5], [2, 4, 5], [1, 2]]" none (QParserError NotRectMatrix). Proof. reflexivity. Qed.
Example medium_eval7 : fails "[[], [], []]" none (QParserError EmptyVec). Proof. reflexivity. Qed.
Example medium_eval8 : fails "" none (QParserError EmptyExpr). Proof. reflexivity. Qed.
Example medium_eval9 : fails "[[3, 0,], [2, 4, 5], [1, 2]]" none (QParserError EmptyExpr). Proof. reflexivity. Qed.
Example medium_eval10 : fails "[[3, 0, 5], [2, 4], [1, 2,]]" none (QParserError EmptyExpr). Proof. reflexivity. Qed.
Example medium_eval11 : first "[-3 ,-5, -2]" none None (V_ [-3;-5;-2]%Z) = true. Proof. vm_compute. reflexivity. Qed.
Example medium_eval12 : first "[3, 3*3, -5]" none None (V_ [3;9;-5]%Z) = true. Proof. vm_compute. reflexivity. Qed.
Example medium_eval13 : first "A_{3*6}*3" (vs [var "A_{3*6}" (S_ 3)]) None (S_ 9) = true. Proof. vm_compute. reflexivity. Qed.
Example medium_eval14 : first "[[1, 0], [0, 6], [0, 0]]*[3, 4, 5]" none None (V_ [3;24]%Z) = true. Proof. vm_compute. reflexivity. Qed.
Example medium_eval15 : first "3(6+2)" none None (S_ 24) = true. Proof. vm_compute. reflexivity. Qed.
Example medium_eval16 : first "3[4, 5, 6]" none None (V_ [12;15;18]%Z) = true. Proof. vm_compute. reflexivity. Qed.
Example medium_eval17 : first "3*[[2, 0, 0], [0, 1, 0], [0, 0, 5]]*[[1, 0, 0], [0, 1, 0], [0, 0, 1]]*[3, 4, 5]" none None (V_ [18;12;75]%Z) = true. Proof. vm_compute. reflexivity. Qed.
Example medium_eval18 : first "[sqrt(25), 2pi, 3]" ctx_default None (Vector [z 5; nmul (z 2) npi; z 3]) = true. Proof. vm_compute. reflexivity. Qed.
Example medium_eval19 : first "[0, 0.5, 0]#[-0.8, 0, 0.6]" none None (Vector [dec 3 10; z 0; dec 4 10]) = true. Proof. vm_compute. reflexivity. Qed.
Example medium_eval20 : first "f(5)" (mkCtx [] (fn "f" "5x^2+2x+x" ["x"])) None (S_ 140) = true. Proof. vm_compute. reflexivity. Qed.
Example medium_eval21 : first "f([3, 4, 5])" (mkCtx [var "A" (V_ [3;4;5]%Z)] (fn "f" "x-A" ["x"])) None (V_ [0;0;0]%Z) = true. Proof. vm_compute. reflexivity. Qed.
Example medium_eval22 : fails "f(5)" (mkCtx [] (fn "f" "3*f(x)" ["x"])) (QEvalError RecursiveFunction). Proof. reflexivity. Qed.
Example medium_eval23 : first "f(f(6))" (mkCtx [] (fn "f" "3*x" ["x"])) None (S_ 54) = true. Proof. vm_compute. reflexivity. Qed.
Example medium_eval24 : gives "[&sqrt(9), &sqrt(9), 0]" none None [V_ [3;3;0]; V_ [3;-3;0]; V_ [-3;3;0]; V_ [-3;-3;0]]%Z = true. Proof. vm_compute. reflexivity. Qed.
Example medium_eval25 : gives "[[&sqrt(9), 0, 0], [0, 1, 0], [0, 0, 1]]" none None [M_ [[3;0;0];[0;1;0];[0;0;1]]; M_ [[-3;0;0];[0;1;0];[0;0;1]]]%Z = true. Proof. vm_compute. reflexivity. Qed.
Example medium_eval26 : match quick_eval 40 (lit "f(&sqrt(16), &sqrt(9))") (mkCtx [] (fn "f" "&sqrt(x)+y" ["x"; "y"])) with
  | Ok ws => equal_values (firstn 4 ws) [S_ 5; S_ 1; S_ (-1); S_ (-5)] | _ => false end = true. Proof. vm_compute. reflexivity. Qed.
Example medium_eval27 : gives "{3, 2}*{7, 3, 2}" none None [S_ 21; S_ 9; S_ 6; S_ 14; S_ 6; S_ 4] = true. Proof. vm_compute. reflexivity. Qed.
Example medium_eval28 : first "det(A)" (vs [var "A" (M_ [[1;2;3];[4;5;6];[7;8;9]]%Z)]) None (S_ 0) = true. Proof. vm_compute. reflexivity. Qed.

(** tests.rs:380-446 *)
Example medium_eval29 : first "det(A)" (vs [var "A" (M_ [[0;6;-2;-1;5];[0;0;0;-9;-7];[0;15;35;0;0];[0;-1;-11;-2;1];[-2;-2;3;0;-2]]%Z)]) None (S_ 2480) = true. Proof. vm_compute. reflexivity. Qed.
Example medium_eval30 : first "inv(A)" (vs [var "A" (Matrix [[z (-1); dec 3 2];[z 1; z (-1)]])]) (Some 3%Z) (M_ [[2;3];[2;2]]%Z) = true. Proof. vm_compute. reflexivity. Qed.
Definition M31 : Value NL := Matrix [[dec 7 10; dec 1 10; dec 3 10];[dec 1 10; dec 5 10; dec 1 10];[dec 2 10; dec 4 10; dec 6 10]].
Definition thrice (n : Z) : list (@T NL) := [dec n 1000; dec n 1000; dec n 1000].
Example medium_eval31 : first "M^20" (vs [var "M" M31]) (Some 3%Z) (Matrix [thrice 444; thrice 167; thrice 389]) = true. Proof. vm_compute. reflexivity. Qed.
Example medium_eval32 : first "M^2" (vs [var "M" (Matrix [[z 0; z 2; z 0];[dec 5 10; z 0; z 0];[z 0; dec 8 10; z 0]])]) (Some 3%Z)
  (Matrix [[z 1; z 0; z 0];[z 0; z 1; z 0];[dec 4 10; z 0; z 0]]) = true. Proof. vm_compute. reflexivity. Qed.
Example calculus_eval1 : first "D(x^2, x, 3)" none (Some 6%Z) (S_ 6) = true. Proof. vm_compute. reflexivity. Qed.
Example hard_eval1 : first "(x*B*A)?1" (vs [var "A" (V_ [3;2;1]%Z); var "x" (S_ 3); var "B" (M_ [[2;3;4];[5;1;7];[2;3;6]]%Z)]) None (S_ 72) = true. Proof. vm_compute. reflexivity. Qed.
Definition sevenths (l : list Z) : list (@T NL) := map (fun n => dec n 7) l.
Example hard_eval2 : first "inv(A)" (vs [var "A" (M_ [[-3;-1;2;-3];[-3;1;2;-2];[-2;3;0;1];[1;-2;-3;1]]%Z)]) (Some 3%Z)
  (value_round 3 (Matrix [sevenths [-11;14;-7;2]; sevenths [-15;21;-7;4]; sevenths [14;-21;7;-7]; sevenths [23;-35;14;-8]]%Z)) = true. Proof. vm_compute. reflexivity. Qed.
(** tests.rs:536-542 *)
Example hard_solve2 : fails "eq(x*[3, 4, 5]=[6, 8, 10], x)" none (QEvalError VectorInEq). Proof. apply err_of_eq. vm_compute. reflexivity. Qed.
