(** * AlgebraSpec: what an expression denotes in linear algebra
    (specification for C73).

    [means phi inside rho e v]: with the functions [phi] and the variables
    [rho], inside the body of the function [inside] (empty at top level), the
    expression [e] denotes the number, vector or matrix [v].  Numbers, vectors
    and matrices are those of mathcomp over a field; nothing here refers to the
    evaluator. *)
From Coq Require Import ZArith List.
Set Warnings "-notation-overridden,-ambiguous-paths".
From mathcomp Require Import all_ssreflect all_algebra.
From Verif Require Import Base Num Types Exact ExactSpec.
Import GRing.Theory ssrnum.Num.Theory.
Set Implicit Arguments.
Unset Strict Implicit.
Unset Printing Implicit Defensive.
Local Open Scope ring_scope.

Section Spec.
Variables (F : archiFieldType) (L : lib F).
Notation NX := (Exact L).
Notation V := (Value NX).
Notation E := (AST NX).
Implicit Types (a b e : E) (x y : F) (rho : str -> option V).

(** Parameters and body of each defined function. *)
Variable phi : str -> option (seq str * E).

(** The variables seen by a function body: parameters hide the variables of
    the caller. *)
Fixpoint bind (ps : seq str) (vs : seq V) rho : str -> option V :=
  match ps, vs with
  | p :: ps, v :: vs => fun n => if str_eqb p n then Some v else bind ps vs rho n
  | _, _ => rho
  end.

(** The cross product of two vectors of length 3. *)
Definition crossp (u v : 'cV[F]_3) : 'cV[F]_3 :=
  \col_i match val i with
         | 0%N => u 1 0 * v 2%:R 0 - u 2%:R 0 * v 1 0
         | 1%N => u 2%:R 0 * v 0 0 - u 0 0 * v 2%:R 0
         | _ => u 0 0 * v 1 0 - u 1 0 * v 0 0
         end.

(** The functions of one number that the field does not determine. *)
Definition elementary (op : SimpleOp) : option (ext F -> ext F) :=
  match op with
  | OSin => Some (x_sin L) | OCos => Some (x_cos L) | OTan => Some (x_tan L)
  | OArcsin => Some (x_asin L) | OArccos => Some (x_acos L) | OArctan => Some (x_atan L)
  | OSqrt => Some (x_sqrt L) | OLn => Some (x_ln L)
  | _ => None
  end.

Definition times (op : SimpleOp) : Prop := op = OMult \/ op = OHiddenMult.

Inductive means : str -> (str -> option V) -> E -> V -> Prop :=
(* numbers, variables, brackets, calls *)
| m_number i rho x : means i rho (@AScalar NX (Fin x)) (sca L x)
| m_variable i rho n v : rho n = Some v -> means i rho (AVar n) v
| m_brackets i rho a b v w : means i rho a v -> means i rho b w -> means i rho (AOp OParenths a b) v
| m_call i rho f ps body args vs v : i <> f -> phi f = Some (ps, body) -> size args = size ps ->
    means_all i rho args vs -> means f (bind ps vs rho) body v -> means i rho (AFun f args) v
(* vector and matrix literals *)
| m_vector i rho es n (v : 'cV[F]_n) :
    means_all i rho es [seq sca L (v k 0) | k <- enum 'I_n] -> means i rho (AVector es) (vec L v)
| m_matrix i rho rows r c (A : 'M[F]_(r, c)) :
    means_rows i rho rows [seq [seq sca L (A k l) | l <- enum 'I_c] | k <- enum 'I_r] ->
    means i rho (AMatrix rows) (mat L A)
(* sums and differences *)
| m_add_ss i rho a b x y : means i rho a (sca L x) -> means i rho b (sca L y) -> means i rho (AOp OAdd a b) (sca L (x + y))
| m_add_vv i rho a b n (u v : 'cV[F]_n) :
    means i rho a (vec L u) -> means i rho b (vec L v) -> means i rho (AOp OAdd a b) (vec L (u + v))
| m_add_mm i rho a b r c (A B : 'M[F]_(r.+1, c)) :
    means i rho a (mat L A) -> means i rho b (mat L B) -> means i rho (AOp OAdd a b) (mat L (A + B))
| m_sub_ss i rho a b x y : means i rho a (sca L x) -> means i rho b (sca L y) -> means i rho (AOp OSub a b) (sca L (x - y))
| m_sub_vv i rho a b n (u v : 'cV[F]_n) :
    means i rho a (vec L u) -> means i rho b (vec L v) -> means i rho (AOp OSub a b) (vec L (u - v))
| m_sub_mm i rho a b r c (A B : 'M[F]_(r.+1, c)) :
    means i rho a (mat L A) -> means i rho b (mat L B) -> means i rho (AOp OSub a b) (mat L (A - B))
(* the operand of the sign is on the right *)
| m_neg_s i rho a b w x : means i rho a w -> means i rho b (sca L x) -> means i rho (AOp ONeg a b) (sca L (- x))
| m_neg_v i rho a b w n (v : 'cV[F]_n) : means i rho a w -> means i rho b (vec L v) -> means i rho (AOp ONeg a b) (vec L (- v))
| m_neg_m i rho a b w r c (A : 'M[F]_(r, c)) : means i rho a w -> means i rho b (mat L A) -> means i rho (AOp ONeg a b) (mat L (- A))
(* products, with or without a visible [*] *)
| m_mul_ss i rho op a b x y : times op -> means i rho a (sca L x) -> means i rho b (sca L y) -> means i rho (AOp op a b) (sca L (x * y))
| m_mul_sv i rho op a b x n (v : 'cV[F]_n) : times op ->
    means i rho a (sca L x) -> means i rho b (vec L v) -> means i rho (AOp op a b) (vec L (x *: v))
| m_mul_vs i rho op a b x n (v : 'cV[F]_n) : times op ->
    means i rho a (vec L v) -> means i rho b (sca L x) -> means i rho (AOp op a b) (vec L (x *: v))
| m_mul_sm i rho op a b x r c (A : 'M[F]_(r.+1, c)) : times op ->
    means i rho a (sca L x) -> means i rho b (mat L A) -> means i rho (AOp op a b) (mat L (x *: A))
| m_mul_ms i rho op a b x r c (A : 'M[F]_(r.+1, c)) : times op ->
    means i rho a (mat L A) -> means i rho b (sca L x) -> means i rho (AOp op a b) (mat L (x *: A))
| m_mul_vv i rho op a b n (u v : 'cV[F]_n) : times op ->
    means i rho a (vec L u) -> means i rho b (vec L v) -> means i rho (AOp op a b) (sca L (dotp u v))
| m_mul_mv i rho op a b r c (A : 'M[F]_(r.+1, c)) (v : 'cV[F]_c) : times op ->
    means i rho a (mat L A) -> means i rho b (vec L v) -> means i rho (AOp op a b) (vec L (A *m v))
| m_mul_mm i rho op a b r c d (A : 'M[F]_(r.+1, c.+1)) (B : 'M[F]_(c.+1, d)) : times op ->
    means i rho a (mat L A) -> means i rho b (mat L B) -> means i rho (AOp op a b) (mat L (A *m B))
(* quotients *)
| m_div_ss i rho a b x y : y != 0 -> means i rho a (sca L x) -> means i rho b (sca L y) -> means i rho (AOp ODiv a b) (sca L (x / y))
| m_div_vs i rho a b y n (v : 'cV[F]_n) : y != 0 ->
    means i rho a (vec L v) -> means i rho b (sca L y) -> means i rho (AOp ODiv a b) (vec L (y^-1 *: v))
| m_div_ms i rho a b y r c (A : 'M[F]_(r.+1, c)) : y != 0 ->
    means i rho a (mat L A) -> means i rho b (sca L y) -> means i rho (AOp ODiv a b) (mat L (y^-1 *: A))
(* cross product (vectors of length 2 lie in the plane z = 0), components,
   powers, determinant, inverse, absolute value *)
| m_cross i rho a b n (u v : 'cV[F]_n) : (n <= 3)%N ->
    means i rho a (vec L u) -> means i rho b (vec L v) -> means i rho (AOp OCross a b) (vec L (crossp (pad3 u) (pad3 v)))
| m_component i rho a b n (v : 'cV[F]_n) (k : 'I_n) : Z.lt (Z.of_nat n) (Z.pow 2 64) ->
    means i rho a (vec L v) -> means i rho b (sca L (val k)%:R) -> means i rho (AOp OGet a b) (sca L (v k 0))
| m_power i rho a b n (A : 'M[F]_n.+1) (k : nat) : Z.lt (Z.of_nat k) (Z.pow 2 31) ->
    means i rho a (mat L A) -> means i rho b (sca L k%:R) -> means i rho (AOp OPow a b) (mat L (A ^+ k))
| m_det i rho a b w n (A : 'M[F]_n.+1) : means i rho a (mat L A) -> means i rho b w -> means i rho (AOp ODet a b) (sca L (\det A))
| m_inv i rho a b w n (A : 'M[F]_n.+1) : regular_minors A ->
    means i rho a (mat L A) -> means i rho b w -> means i rho (AOp OInv a b) (mat L (invmx A))
| m_abs i rho a b w x : means i rho a (sca L x) -> means i rho b w -> means i rho (AOp OAbs a b) (sca L `|x|)
(* functions of the library *)
| m_length i rho a b w n (v : 'cV[F]_n) y : x_sqrt L (Fin (dotp v v)) = Fin y ->
    means i rho a (vec L v) -> means i rho b w -> means i rho (AOp OAbs a b) (sca L y)
| m_elementary i rho op f a b w x y : elementary op = Some f -> f (Fin x) = Fin y ->
    means i rho a (sca L x) -> means i rho b w -> means i rho (AOp op a b) (sca L y)
| m_power_s i rho a b x y z : x_powf L (Fin x) (Fin y) = Fin z ->
    means i rho a (sca L x) -> means i rho b (sca L y) -> means i rho (AOp OPow a b) (sca L z)
| m_root i rho a b x y z : y != 0 -> x_powf L (Fin x) (Fin y^-1) = Fin z ->
    means i rho a (sca L x) -> means i rho b (sca L y) -> means i rho (AOp ORoot a b) (sca L z)
with means_all : str -> (str -> option V) -> seq E -> seq V -> Prop :=
| m_nil i rho : means_all i rho [::] [::]
| m_cons i rho e es v vs : means i rho e v -> means_all i rho es vs -> means_all i rho (e :: es) (v :: vs)
with means_rows : str -> (str -> option V) -> seq (seq E) -> seq (seq V) -> Prop :=
| m_no_row i rho : means_rows i rho [::] [::]
| m_row i rho es vs rows vss : means_all i rho es vs -> means_rows i rho rows vss -> means_rows i rho (es :: rows) (vs :: vss).

(** The context [c] holds the functions [phi] and the variables [rho] (each
    with one value): the first entry with a name counts. *)
Definition holds (c : Ctx NX) rho : Prop :=
  (forall n v, rho n = Some v -> exists w, List.find (fun w => str_eqb (var_name w) n) (vars c) = Some w /\ var_values w = [:: v]) /\
  (forall f ps body, phi f = Some (ps, body) ->
     exists g, List.find (fun g => str_eqb (fun_name g) f) (funs c) = Some g /\ fun_inputs g = ps /\ fun_ast g = body).
End Spec.
