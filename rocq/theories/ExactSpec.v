(** * ExactSpec: vectors and matrices over a field as values (specification).

    The right-hand sides of the theorems in [PropExact.v] are written with
    mathcomp's matrices: [A *m B], [\det A], [invmx A], [A ^+ n]. *)
Set Warnings "-notation-overridden,-ambiguous-paths".
From mathcomp Require Import all_ssreflect all_algebra.
From Verif Require Import Base Num Types Exact.
Import GRing.Theory.
Set Implicit Arguments.
Unset Strict Implicit.
Unset Printing Implicit Defensive.
Local Open Scope ring_scope.

Section Spec.
Variables (F : archiFieldType) (L : lib F).
Notation V := (Value (Exact L)).

(** The finite number [x], the vector [v], the matrix [A] (list of rows) as
    values of the crate. *)
Definition sca (x : F) : V := @Scalar (Exact L) (Fin x).
Definition vec n (v : 'cV[F]_n) : V := @Vector (Exact L) [seq Fin (v i 0) | i <- enum 'I_n].
Definition mat r c (A : 'M[F]_(r, c)) : V :=
  @Matrix (Exact L) [seq [seq Fin (A i j) | j <- enum 'I_c] | i <- enum 'I_r].

(** The leading [k] rows and columns of [A]. *)
Definition leading r c (A : 'M[F]_(r, c)) k (rk : (k <= r)%N) (ck : (k <= c)%N) : 'M[F]_k :=
  \matrix_(i, j) A (widen_ord rk i) (widen_ord ck j).
(** Elimination without row exchanges meets no zero pivot: all leading minors
    are different from 0. *)
Definition regular_minors n (A : 'M[F]_n) : Prop :=
  forall k (kn : (k <= n)%N), \det (leading A kn kn) != 0.
End Spec.

Section Spec2.
Variables (F : archiFieldType) (L : lib F).
(** The rows of the augmented matrix of the linear system [A x = b]. *)
Definition system n (A : 'M[F]_n) (b : 'cV[F]_n) : list (list (@T (Exact L))) :=
  [seq [seq Fin (A i j) | j <- enum 'I_n] ++ [:: Fin (b i 0)] | i <- enum 'I_n].
(** Dot product. *)
Definition dotp n (u v : 'cV[F]_n) : F := \sum_i u i 0 * v i 0.
(** A vector with at most three components, filled up with zeros. *)
Definition pad3 n (u : 'cV[F]_n) : 'cV[F]_3 := \col_i (if insub (val i) is Some j then u j 0 else 0).
End Spec2.
