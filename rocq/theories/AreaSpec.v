(** * AreaSpec: the parts of the error of a computed integral. *)
From Coq Require Import List Reals.
From Verif Require Import F64 FloatFacts EstimateSpec.
Import ListNotations.
Local Open Scope R_scope.

(** The estimate of a sum. *)
Definition est_total (e : estimate) (es : list estimate) : estimate := fold_left est_add es e.

(** With strips of width [dx] between points of absolute value at most [P]:
    how far the end of a strip can be off ... *)
Definition slip (dx : f64) (P : R) : R := unit_roundoff * (P + fR dx).
(** ... how far the sampled point can be off ... *)
Definition blur (dx : f64) (P : R) : R := (1 + unit_roundoff) ^ 3 * (P + fR dx / 2 + tiny) - (P + fR dx / 2).
(** ... and the difference between sample times width and the real area of one
    strip, if the function is at most [V] and has slope at most [S]. *)
Definition strip_error (dx : f64) (P V S : R) : R :=
  V * slip dx P + S * (3 / 2 * fR dx + slip dx P + blur dx P) * (fR dx + slip dx P).
