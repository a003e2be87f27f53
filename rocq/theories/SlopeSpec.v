(** * SlopeSpec: polynomial expressions in one variable, and a bound for how far
    their graph bends away from its tangent.

    From the model only the data types and the real value of a double are
    used. *)
From Coq Require Import List Bool Reals SpecFloat.
From Verif Require Import Base F64 Num Types Maths Eval FloatFacts EstimateSpec.
Import ListNotations.
Local Open Scope R_scope.

Section Slope.
Variable lm : Libm.
Local Instance NF : Num := F64 lm.

(** Numbers, variables that hold numbers, and the variable [x], combined by +,
    -, *, brackets, signs, and division by numbers and variables other than
    [x]. *)
Inductive polynomial (c : Ctx NF) (x : str) : AST NF -> Prop :=
| P_x : polynomial c x (AVar x)
| P_known a y : known lm c [x] a y -> polynomial c x a
| P_add a b : polynomial c x a -> polynomial c x b -> polynomial c x (AOp OAdd a b)
| P_sub a b : polynomial c x a -> polynomial c x b -> polynomial c x (AOp OSub a b)
| P_neg z b : polynomial c x b -> polynomial c x (AOp ONeg (AScalar z) b)
| P_mult a b : polynomial c x a -> polynomial c x b -> polynomial c x (AOp OMult a b)
| P_hidden a b : polynomial c x a -> polynomial c x b -> polynomial c x (AOp OHiddenMult a b)
| P_div a b y : polynomial c x a -> known lm c [x] b y -> fR y <> 0 -> polynomial c x (AOp ODiv a b)
| P_brackets a z : polynomial c x a -> polynomial c x (AOp OParenths a (AScalar z)).

(** Bounds for |f|, for its slope and for half of its second derivative, as
    long as |x| is at most [X]. *)
Record bend : Type := mkBend { size : R; steep : R; curve : R }.
Definition bend_add (p q : bend) : bend := mkBend (size p + size q) (steep p + steep q) (curve p + curve q).
Definition bend_mult (p q : bend) : bend :=
  mkBend (size p * size q) (size p * steep q + steep p * size q) (size p * curve q + curve p * size q + steep p * steep q).
Definition bend_div (p : bend) (y : R) : bend := mkBend (size p / Rabs y) (steep p / Rabs y) (curve p / Rabs y).
Fixpoint bend_of (rho : str -> R) (x : str) (X : R) (a : AST NF) : bend :=
  match a with
  | AScalar y => mkBend (Rabs (fR y)) 0 0
  | AVar n => if str_eqb x n then mkBend X 1 0 else mkBend (Rabs (rho n)) 0 0
  | AOp OAdd a b | AOp OSub a b => bend_add (bend_of rho x X a) (bend_of rho x X b)
  | AOp ONeg _ b => bend_of rho x X b
  | AOp OMult a b | AOp OHiddenMult a b => bend_mult (bend_of rho x X a) (bend_of rho x X b)
  | AOp ODiv a b => bend_div (bend_of rho x X a) (over_reals lm rho b)
  | AOp OParenths a _ => bend_of rho x X a
  | _ => mkBend 0 0 0
  end.
End Slope.
