(** * ReplaceSpec: replacing parts of an expression. *)
From Coq Require Import List NArith ZArith Bool.
From Verif Require Import Base Num Types.
Import ListNotations.

Section Spec.
Context {N : Num}.
(** [rp a b]: [b] is [a] with some parts [p] of it replaced by parts [q] such
    that [H p q].  A part inside the body of an integral, a derivative or an
    equation is replaced only if the names bound there satisfy [B]. *)
Variable H : AST N -> AST N -> Prop.
Variable B : str -> Prop.
Inductive rp : AST N -> AST N -> Prop :=
| rp_here p q : H p q -> rp p q
| rp_same a : rp a a
| rp_inside a b : rc a b -> rp a b
(** both terms have the same outermost form, and related parts *)
with rc : AST N -> AST N -> Prop :=
| rc_scalar s : rc (AScalar s) (AScalar s)
| rc_var n : rc (AVar n) (AVar n)
| rc_vector v v' : Forall2 rp v v' -> rc (AVector v) (AVector v')
| rc_matrix m m' : Forall2 (Forall2 rp) m m' -> rc (AMatrix m) (AMatrix m')
| rc_list v v' : Forall2 rp v v' -> rc (AList v) (AList v')
| rc_fun n v v' : Forall2 rp v v' -> rc (AFun n v) (AFun n v')
| rc_op op l l' r r' : rp l l' -> rp r r' -> rc (AOp op l r) (AOp op l' r')
| rc_int e e' x l l' u u' : e = e' \/ (B x /\ rp e e') -> rp l l' -> rp u u' -> rc (AInt e x l u) (AInt e' x l' u')
| rc_der e e' x a a' : e = e' \/ (B x /\ rp e e') -> rp a a' -> rc (ADer e x a) (ADer e' x a')
| rc_eq qs qs' xs : qs = qs' \/ ((forall n, In n xs -> B n) /\
    Forall2 (fun s s' => rp (fst s) (fst s') /\ rp (snd s) (snd s')) qs qs') -> rc (AEq qs xs) (AEq qs' xs).

(** The same in the bodies of the functions of a context. *)
Definition rp_fun (f g : MFun N) : Prop :=
  fun_name f = fun_name g /\ fun_inputs f = fun_inputs g /\ rp (fun_ast f) (fun_ast g).
Definition rp_ctx (c d : Ctx N) : Prop := vars c = vars d /\ Forall2 rp_fun (funs c) (funs d).
End Spec.

(** Any name may be bound around a replaced part. *)
Definition anywhere : str -> Prop := fun _ => True.
(** One particular replacement. *)
Definition exchange {N : Num} (p q : AST N) : AST N -> AST N -> Prop := fun a b => a = p /\ b = q.

(** A set of values written down as an expression. *)
Definition written {N : Num} (vs : list (Value N)) : AST N := AList (map ast_from_value vs).

(** An expression with values filled in for variables. *)
Definition value_for {N : Num} (s : list (str * Value N)) (n : str) : option (Value N) :=
  option_map snd (find (fun e => str_eqb (fst e) n) s).
Fixpoint fill {N : Num} (s : list (str * Value N)) (a : AST N) : AST N :=
  match a with
  | AScalar x => AScalar x
  | AVar n => match value_for s n with Some v => ast_from_value v | None => AVar n end
  | AVector v => AVector (map (fill s) v)
  | AMatrix m => AMatrix (map (map (fill s)) m)
  | AList l => AList (map (fill s) l)
  | AFun n args => AFun n (map (fill s) args)
  | AOp op l r => AOp op (fill s l) (fill s r)
  | AInt e x l u => AInt (fill s e) x (fill s l) (fill s u)
  | ADer e x a => ADer (fill s e) x (fill s a)
  | AEq qs xs => AEq (map (fun e => (fill s (fst e), fill s (snd e))) qs) xs
  end.

(** The names bound by the integrals, derivatives and equations of an
    expression. *)
Fixpoint bound {N : Num} (a : AST N) : list str :=
  match a with
  | AScalar _ | AVar _ => []
  | AVector v => flat_map bound v
  | AMatrix m => flat_map (fun r => flat_map bound r) m
  | AList l => flat_map bound l
  | AFun _ inputs => flat_map bound inputs
  | AOp _ l r => bound l ++ bound r
  | AInt e x l u => x :: bound e ++ bound l ++ bound u
  | ADer e x at_ => x :: bound e ++ bound at_
  | AEq eqs sv => sv ++ flat_map (fun e => bound (fst e) ++ bound (snd e)) eqs
  end.
