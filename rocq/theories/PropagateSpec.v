(** * PropagateSpec: how errors propagate through an expression.

    A [quantity] is a real number together with a bound for the distance of the
    computed double from it; the rules below say what happens to the bound in
    each operation.  From the model only the data types, the list of functions
    of a context and the real value of a double ([fR]) are used. *)
From Coq Require Import List Bool String Arith Reals SpecFloat.
From Verif Require Import Base F64 Num Types Eval FloatFacts PropNumber EstimateSpec.
Import ListNotations.
Local Open Scope R_scope.
Local Open Scope list_scope.

Record quantity : Type := mkQ {
  value : R;   (** the exact value *)
  error : R;   (** the computed double is at most this far away *)
  top : R      (** a bound for the operands and results so far *) }.

(** [x] is a double that agrees with [q], provided that nothing overflowed. *)
Definition agrees (q : quantity) (x : f64) : Prop :=
  fvalid x = true /\ (top q < overflow_threshold -> fis_finite x = true /\ Rabs (fR x - value q) <= error q).

Definition exactly (x : f64) : quantity := mkQ (fR x) 0 0.
Definition roughly (v d : R) : quantity := mkQ v d 0.
(** A result [v], wrong by [d] because of its operands, is rounded. *)
Definition rounding (v d t : R) : quantity := mkQ v (d + (unit_roundoff * (Rabs v + d) + tiny)) (Rmax t (Rabs v + d)).
Definition q_add (a b : quantity) : quantity := rounding (value a + value b) (error a + error b) (Rmax (top a) (top b)).
Definition q_neg (a : quantity) : quantity := mkQ (- value a) (error a) (top a).
Definition q_sub (a b : quantity) : quantity := q_add a (q_neg b).
Definition q_mult (a b : quantity) : quantity :=
  rounding (value a * value b) (error a * Rabs (value b) + error b * Rabs (value a) + error a * error b) (Rmax (top a) (top b)).
Definition q_div (a b : quantity) : quantity :=
  rounding (value a / value b)
    ((error a * Rabs (value b) + error b * Rabs (value a)) / (Rabs (value b) * (Rabs (value b) - error b))) (Rmax (top a) (top b)).
Definition q_sqrt (a : quantity) : quantity := rounding (sqrt (value a)) (error a / sqrt (value a)) (top a).
Definition q_abs (a : quantity) : quantity := mkQ (Rabs (value a)) (error a) (top a).
Fixpoint q_sum (n : nat) (f : nat -> quantity) : quantity := match n with O => exactly f0 | S k => q_add (q_sum k f) (f k) end.
(** 0 is not between [value b - error b] and [value b + error b]. *)
Definition away_from_0 (b : quantity) : Prop := error b < Rabs (value b).
Definition positive (a : quantity) : Prop := 0 < value a /\ error a <= value a.
(** Every value allowed by [q] is allowed by [q']. *)
Definition wider (q q' : quantity) : Prop := Rabs (value q - value q') + error q <= error q' /\ top q <= top q'.

(** Quantities as numbers, vectors and matrices. *)
Inductive quantities : Type :=
| QS (q : quantity)
| QV (n : nat) (q : nat -> quantity)
| QM (r c : nat) (q : nat -> nat -> quantity).
Definition all_wider (s s' : quantities) : Prop :=
  match s, s' with
  | QS q, QS q' => wider q q'
  | QV n q, QV n' q' => n = n' /\ forall i, (i < n)%nat -> wider (q i) (q' i)
  | QM r c q, QM r' c' q' => r = r' /\ c = c' /\ forall i j, (i < r)%nat -> (j < c)%nat -> wider (q i j) (q' i j)
  | _, _ => False
  end.

(** The determinant by expansion along the first row; [skip k] leaves out
    column [k]. *)
Definition skip (k j : nat) : nat := if Nat.ltb j k then j else S j.
Definition q_sign (k : nat) : quantity := mkQ (if Nat.even k then 1 else -1) 0 0.
Fixpoint q_det (n : nat) (a : nat -> nat -> quantity) {struct n} : quantity :=
  match n with
  | 0 => exactly f0
  | 1 => a 0%nat 0%nat
  | S n' =>
      match n' with
      | S (S _) => q_sum n (fun k => q_mult (q_mult (q_sign k) (a 0%nat k)) (q_det n' (fun i j => a (S i) (skip k j))))
      | _ => q_sub (q_mult (a 0%nat 0%nat) (a 1%nat 1%nat)) (q_mult (a 0%nat 1%nat) (a 1%nat 0%nat))
      end
  end.

(** Operations on two operands. *)
Inductive combine2 : SimpleOp -> quantities -> quantities -> quantities -> Prop :=
| C_add p q : combine2 OAdd (QS p) (QS q) (QS (q_add p q))
| C_addv n p q : combine2 OAdd (QV n p) (QV n q) (QV n (fun i => q_add (p i) (q i)))
| C_addm r c p q : (0 < r)%nat -> combine2 OAdd (QM r c p) (QM r c q) (QM r c (fun i j => q_add (p i j) (q i j)))
| C_sub p q : combine2 OSub (QS p) (QS q) (QS (q_sub p q))
| C_subv n p q : combine2 OSub (QV n p) (QV n q) (QV n (fun i => q_sub (p i) (q i)))
| C_subm r c p q : (0 < r)%nat -> combine2 OSub (QM r c p) (QM r c q) (QM r c (fun i j => q_sub (p i j) (q i j)))
| C_mult p q : combine2 OMult (QS p) (QS q) (QS (q_mult p q))
| C_scalev p n q : combine2 OMult (QS p) (QV n q) (QV n (fun i => q_mult (q i) p))
| C_vscale p n q : combine2 OMult (QV n q) (QS p) (QV n (fun i => q_mult (q i) p))
| C_scalem p r c q : (0 < r)%nat -> combine2 OMult (QS p) (QM r c q) (QM r c (fun i j => q_mult (q i j) p))
| C_mscale p r c q : (0 < r)%nat -> combine2 OMult (QM r c q) (QS p) (QM r c (fun i j => q_mult (q i j) p))
| C_dot n p q : combine2 OMult (QV n p) (QV n q) (QS (q_sum n (fun k => q_mult (p k) (q k))))
| C_mv r c p q : (0 < r)%nat -> combine2 OMult (QM r c p) (QV c q) (QV r (fun i => q_sum c (fun k => q_mult (p i k) (q k))))
| C_mm r c k p q : (0 < r)%nat -> (0 < c)%nat ->
    combine2 OMult (QM r c p) (QM c k q) (QM r k (fun i j => q_sum c (fun l => q_mult (p i l) (q l j))))
| C_hidden s t w : combine2 OMult s t w -> combine2 OHiddenMult s t w
| C_div p q : away_from_0 q -> combine2 ODiv (QS p) (QS q) (QS (q_div p q))
| C_divv n p q : away_from_0 q -> combine2 ODiv (QV n p) (QS q) (QV n (fun i => q_mult (p i) (q_div (exactly f1) q)))
| C_divm r c p q : (0 < r)%nat -> away_from_0 q -> combine2 ODiv (QM r c p) (QS q) (QM r c (fun i j => q_mult (p i j) (q_div (exactly f1) q)))
| C_cross p q : combine2 OCross (QV 3 p) (QV 3 q)
    (QV 3 (fun i => match i with
      | 0 => q_sub (q_mult (p 1) (q 2)) (q_mult (p 2) (q 1))
      | 1 => q_sub (q_mult (p 2) (q 0)) (q_mult (p 0) (q 2))
      | _ => q_sub (q_mult (p 0) (q 1)) (q_mult (p 1) (q 0)) end))%nat.
(** Operations on one operand. *)
Inductive combine1 : SimpleOp -> quantities -> quantities -> Prop :=
| C_brackets s : combine1 OParenths s s
| C_abs p : combine1 OAbs (QS p) (QS (q_abs p))
| C_norm n p : (0 < n)%nat -> positive (q_sum n (fun k => q_mult (p k) (p k))) -> combine1 OAbs (QV n p) (QS (q_sqrt (q_sum n (fun k => q_mult (p k) (p k)))))
| C_sqrt p : positive p -> combine1 OSqrt (QS p) (QS (q_sqrt p))
| C_det n p : (0 < n)%nat -> combine1 ODet (QM n n p) (QS (q_det n p)).
Definition q_negated (s : quantities) : quantities :=
  match s with QS p => QS (q_neg p) | QV n p => QV n (fun i => q_neg (p i)) | QM r c p => QM r c (fun i j => q_neg (p i j)) end.

Section Tracked.
Variable lm : Libm.
Local Instance NF : Num := F64 lm.
(** The functions that the platform's mathematical library provides. *)
Definition platform1 : list (SimpleOp * (f64 -> f64)) :=
  [(OSin, lm_sin lm); (OCos, lm_cos lm); (OTan, lm_tan lm); (OArcsin, lm_asin lm); (OArccos, lm_acos lm); (OArctan, lm_atan lm); (OLn, lm_ln lm)].

(** What the names stand for; the parameters of a function come first. *)
Definition names : Type := str -> option quantities.
Fixpoint bind_parameters (ps : list str) (ss : list quantities) (rho : names) : names :=
  match ps, ss with
  | p :: ps, s :: ss => fun n => if str_eqb p n then Some s else bind_parameters ps ss rho n
  | _, _ => rho
  end.

Variable fs : list (MFun NF).  (* the functions that can be called *)
(** [tracked inside rho a s]: expression [a], evaluated inside the body of
    function [inside] (or nowhere: []), has the quantities [s]. *)
Inductive tracked : str -> names -> AST NF -> quantities -> Prop :=
| T_number inside rho x : double x -> tracked inside rho (AScalar (x : @T NF)) (QS (exactly x))
| T_name inside rho n s : rho n = Some s -> tracked inside rho (AVar n) s
| T_vector inside rho es q : (forall i, (i < List.length es)%nat -> tracked inside rho (nth i es (AList [])) (QS (q i))) ->
    tracked inside rho (AVector es) (QV (List.length es) q)
| T_matrix inside rho rows r c q : List.length rows = r -> (forall i, (i < r)%nat -> List.length (nth i rows []) = c) ->
    (forall i j, (i < r)%nat -> (j < c)%nat -> tracked inside rho (nth j (nth i rows []) (AList [])) (QS (q i j))) ->
    tracked inside rho (AMatrix rows) (QM r c q)
| T_binary inside rho op a b s t w : tracked inside rho a s -> tracked inside rho b t -> combine2 op s t w -> tracked inside rho (AOp op a b) w
| T_unary inside rho op a z s w : tracked inside rho a s -> combine1 op s w -> tracked inside rho (AOp op a (AScalar z)) w
| T_neg inside rho z a s : tracked inside rho a s -> tracked inside rho (AOp ONeg (AScalar z) a) (q_negated s)
| T_component inside rho a n q (i : f64) k : tracked inside rho a (QV n q) -> (Z.of_nat n < 2 ^ 63)%Z ->
    double i -> fsign_neg i = false -> fR i = INR k -> (k < n)%nat ->
    tracked inside rho (AOp OGet a (AScalar (i : @T NF))) (QS (q k))
| T_platform inside rho op f a z q v d : In (op, f) platform1 -> tracked inside rho a (QS q) ->
    (forall x, double x -> Rabs (fR x - value q) <= error q -> double (f x) /\ Rabs (fR (f x) - v) <= d) ->
    (forall x, fvalid x = true -> fvalid (f x) = true) ->
    tracked inside rho (AOp op a (AScalar z)) (QS (mkQ v d (top q)))
| T_power inside rho a b p q v d : tracked inside rho a (QS p) -> tracked inside rho b (QS q) ->
    (forall x y, double x -> double y -> Rabs (fR x - value p) <= error p -> Rabs (fR y - value q) <= error q ->
       double (lm_powf lm x y) /\ Rabs (fR (lm_powf lm x y) - v) <= d) ->
    (forall x y, fvalid x = true -> fvalid y = true -> fvalid (lm_powf lm x y) = true) ->
    tracked inside rho (AOp OPow a b) (QS (mkQ v d (Rmax (top p) (top q))))
| T_call inside rho f args ss w : inside <> fun_name f -> find (fun g => str_eqb (fun_name g) (fun_name f)) fs = Some f ->
    List.length args = List.length (fun_inputs f) -> List.length ss = List.length args ->
    (forall i, (i < List.length args)%nat -> tracked inside rho (nth i args (AList [])) (nth i ss (QS (exactly f0)))) ->
    tracked (fun_name f) (bind_parameters (fun_inputs f) ss rho) (fun_ast f) w ->
    tracked inside rho (AFun (fun_name f) args) w
| T_wider inside rho a s s' : tracked inside rho a s -> all_wider s s' -> tracked inside rho a s'.

(** A value with the given quantities. *)
Definition agrees_value (s : quantities) (v : Value NF) : Prop :=
  match s, v with
  | QS q, Scalar x => agrees q x
  | QV n q, Vector l => List.length l = n /\ forall i, (i < n)%nat -> agrees (q i) (nth i l f0)
  | QM r c q, Matrix m => List.length m = r /\ (forall i, (i < r)%nat -> List.length (nth i m []) = c) /\
      forall i j, (i < r)%nat -> (j < c)%nat -> agrees (q i j) (nth j (nth i m []) f0)
  | _, _ => False
  end.
(** Every name of [rho] is a variable with one value, as [rho] says. *)
Definition agrees_context (rho : names) (c : Ctx NF) : Prop :=
  forall n s, rho n = Some s -> exists v x, lookup_var c n = Some v /\ var_values v = [x] /\ agrees_value s x.
End Tracked.
