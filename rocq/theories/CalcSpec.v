(** * CalcSpec: what integrals and derivatives compute, in a few lines. *)
From Coq Require Import List NArith ZArith Bool String.
From Verif Require Import Base F64 Num Types Maths Parser Eval.
Import ListNotations.

Section Spec.
Context {N : Num} {En : Env}.
Notation V := (Value N).

(** [c] with the variable [x] set to the number [s]. *)
Definition set_num (c : Ctx N) (x : str) (s : T) : Ctx N := add_var c (mkVar x [Scalar s]).

(** The step of the difference quotient, 10^-PREC. *)
Definition step_h : T := pow10 (- PREC).
(** The difference quotient [(f(a+h) - f(a)) / h], by the public operations. *)
Definition quotient (fxh fx : V) : res string V := do d <- sub fxh fx; div d (Scalar step_h).

(** The width of a strip: [(b - a) / 10^(PREC-3)]. *)
Definition width (a b : T) : T := ndiv (nsub b a) (pow10 (PREC - 3)).
(** Where the strip that starts at [p] is sampled: [(p + (p - dx)) / 2]. *)
Definition sample (dx p : T) : T := ndiv (nadd p (nsub p dx)) (nof_Z 2).

(** [p], [p + dx], [p + dx + dx] ... as long as they are below [ub]. *)
Inductive visits (dx ub : T) : T -> list T -> Prop :=
| V_end p : nltb p ub = false -> visits dx ub p []
| V_step p ps : nltb p ub = true -> visits dx ub (nadd p dx) ps -> visits dx ub p (p :: ps).

(** [q] is [p] or is reached from [p] by steps of [dx] taken below [ub]. *)
Inductive leads (dx ub : T) : T -> T -> Prop :=
| L_here p : leads dx ub p p
| L_step p q : nltb p ub = true -> leads dx ub (nadd p dx) q -> leads dx ub p q.
End Spec.
