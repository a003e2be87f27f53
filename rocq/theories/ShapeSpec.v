(** * ShapeSpec: kinds of values (specification).

    Only the data types of the model are used. *)
From Coq Require Import List NArith ZArith Bool Arith.
From Verif Require Import Base Num Types GrammarSpec ParserSpec.
Import ListNotations.

(** A scalar, a vector with [n] components, a matrix with [r] rows and [c]
    columns. *)
Inductive kind : Type := KS | KV (n : nat) | KM (r c : nat).

Section Spec.
Context {N : Num}.

(** [v] is well-formed and of kind [k]: vectors are non-empty, matrices
    rectangular and non-empty. *)
Definition has_kind (v : Value N) (k : kind) : Prop :=
  match v, k with
  | Scalar _, KS => True
  | Vector l, KV n => 0 < n /\ List.length l = n
  | Matrix m, KM r c => 0 < r /\ 0 < c /\ shape m r c
  | _, _ => False
  end.
Definition well_formed (v : Value N) : Prop := exists k, has_kind v k.

(** Every vector literal in [a] is non-empty, every matrix literal non-empty
    and rectangular (all trees made by [parse] are regular). *)
Definition regular (a : AST N) : Prop :=
  forall x, node x a ->
    match x with
    | AVector v => v <> []
    | AMatrix m => exists r c, 0 < r /\ 0 < c /\ shape m r c
    | _ => True
    end.
(** There is no equation in [a]. *)
Definition no_equation (a : AST N) : Prop := forall eqs sv, ~ node (AEq eqs sv) a.
(** Values and functions of a context are well-formed. *)
Definition good_context (c : Ctx N) : Prop :=
  (forall v x, In v (vars c) -> In x (var_values v) -> well_formed x) /\
  (forall f, In f (funs c) -> regular (fun_ast f) /\ no_equation (fun_ast f)).

End Spec.

(** The documented table: which kinds an operator accepts, and the kind of the
    result.  ([pow], [get] and [inv] also depend on the values and are not in the
    table; [neg] and the one-argument functions ignore the other operand.) *)
Definition op_kind (op : SimpleOp) (k1 k2 : kind) : option kind :=
  match op with
  | OAdd | OSub | OAddSub =>
      match k1, k2 with
      | KS, KS => Some KS
      | KV n, KV m => if Nat.eqb n m then Some (KV n) else None
      | KM r c, KM r' c' => if (Nat.eqb r r' && Nat.eqb c c')%bool then Some (KM r c) else None
      | _, _ => None
      end
  | ONeg => Some k2
  | OMult | OHiddenMult =>
      match k1, k2 with
      | KS, k => Some k
      | k, KS => Some k
      | KV n, KV m => if Nat.eqb n m then Some KS else None
      | KM r c, KV n => if Nat.eqb c n then Some (KV r) else None
      | KM r c, KM r' c' => if Nat.eqb c r' then Some (KM r c') else None
      | KV _, KM _ _ => None
      end
  | ODiv =>
      match k1, k2 with
      | k, KS => Some k
      | KV n, KV m => if Nat.eqb n m then Some KS else None
      | _, _ => None
      end
  | OCross =>
      match k1, k2 with
      | KV n, KV m => if (Nat.eqb n m && Nat.leb n 3)%bool then Some (KV 3) else None
      | _, _ => None
      end
  | OAbs => match k1 with KS | KV _ => Some KS | KM _ _ => None end
  | OSin | OCos | OTan | OSqrt | OLn | OArcsin | OArccos | OArctan =>
      match k1 with KS => Some KS | _ => None end
  | ORoot => match k1, k2 with KS, KS => Some KS | _, _ => None end
  | ODet => match k1 with KM r c => if Nat.eqb r c then Some KS else None | _ => None end
  | OParenths => Some k1
  | OPow | OGet | OInv => None
  end.
Definition in_table (op : SimpleOp) : bool :=
  match op with OPow | OGet | OInv => false | _ => true end.
