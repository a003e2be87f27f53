(** * KindSpec: a static check of kinds (specification for C71).

    [kind_of n F inside G e] computes, from the kinds of the variables alone,
    which kind of value [e] has and how many values it has.  Nothing is
    evaluated; the check works on the expression and on the bodies of the
    functions it calls, down to depth [n]. *)
From Coq Require Import List NArith ZArith Bool Arith.
From Verif Require Import Base Num Types Eval SpecEval GrammarSpec ParserSpec ShapeSpec.
Import ListNotations.

Definition kind_eqb (a b : kind) : bool :=
  match a, b with
  | KS, KS => true
  | KV n, KV m => Nat.eqb n m
  | KM r c, KM r' c' => (Nat.eqb r r' && Nat.eqb c c')%bool
  | _, _ => false
  end.
Definition product (l : list nat) : nat := fold_right Nat.mul 1 l.
Definition sum (l : list nat) : nat := fold_right Nat.add 0 l.

(** All of them, if there are all. *)
Fixpoint all_some {A} (l : list (option A)) : option (list A) :=
  match l with
  | [] => Some []
  | Some x :: l => match all_some l with Some xs => Some (x :: xs) | None => None end
  | None :: _ => None
  end.

(** A kind and a number of values. *)
Definition kinds : Type := (kind * nat)%type.
(** The numbers of values, if all are of kind [k]. *)
Definition all_of (k : kind) (l : option (list kinds)) : option (list nat) :=
  match l with
  | Some l => if forallb (fun km => kind_eqb (fst km) k) l then Some (map snd l) else None
  | None => None
  end.

(** The kinds of an operator's operands and result: the documented table, and
    powers of numbers. *)
Definition operator (op : SimpleOp) (k1 k2 : kind) : option kind :=
  match op, k1, k2 with
  | OPow, KS, KS => Some KS
  | _, _, _ => op_kind op k1 k2
  end.

(** [G] with the names [ps] set to one value each, of the kinds [ks] (the first
    of equal names counts). *)
Definition with_params (ps : list str) (ks : list kind) (G : str -> option kinds) (n : str) : option kinds :=
  match find (fun nk => str_eqb (fst nk) n) (combine ps ks) with
  | Some nk => Some (snd nk, 1)
  | None => G n
  end.

Section Check.
Context {N : Num}.

Fixpoint kind_of (n : nat) (F : str -> option (MFun N)) (inside : str) (G : str -> option kinds) (e : AST N) : option kinds :=
  match n with
  | O => None
  | S n =>
    let here := kind_of n F inside G in
    match e with
    | AScalar _ => Some (KS, 1)
    | AVar x => G x
    (* a vector of numbers: one vector for every way to choose values *)
    | AVector es =>
        match all_of KS (all_some (map here es)) with
        | Some ms => if Nat.eqb (List.length es) 0 then None else Some (KV (List.length es), product ms)
        | None => None
        end
    (* a rectangle of numbers *)
    | AMatrix rows =>
        match rows with
        | [] => None
        | row :: _ =>
          match all_of KS (all_some (map here (List.concat rows))) with
          | Some ms => if (forallb (fun r => Nat.eqb (List.length r) (List.length row)) rows && negb (Nat.eqb (List.length row) 0))%bool
                       then Some (KM (List.length rows) (List.length row), product ms) else None
          | None => None
          end
        end
    (* a list of values of one kind *)
    | AList es =>
        match map here es with
        | Some (k, m) :: _ =>
          match all_of k (all_some (map here es)) with
          | Some ms => Some (k, sum ms)
          | None => None
          end
        | _ => None
        end
    | AOp op a b =>
        match here a, here b with
        | Some (k1, m1), Some (k2, m2) =>
          match operator op k1 k2 with
          | Some k => Some (k, m1 * m2 * op_width op)
          | None => None
          end
        | _, _ => None
        end
    (* the body, with the parameters of the arguments' kinds *)
    | AFun f args =>
        match F f, all_some (map here args) with
        | Some fn, Some kms =>
          if (negb (str_eqb inside f) && Nat.eqb (List.length args) (List.length (fun_inputs fn)))%bool
          then match kind_of n F f (with_params (fun_inputs fn) (map fst kms) G) (fun_ast fn) with
               | Some (k, m) => Some (k, product (map snd kms) * m)
               | None => None
               end
          else None
        | _, _ => None
        end
    (* at every point the derivative of every value, of the same kind *)
    | ADer b x at_ =>
        match here at_, kind_of n F [] (with_params [x] [KS] G) b with
        | Some (KS, m1), Some (k, m2) => Some (k, m1 * m2)
        | _, _ => None
        end
    | AInt _ _ _ _ | AEq _ _ => None
    end
  end.

(** The kind of a value, if it is well-formed. *)
Definition value_kind (v : Value N) : option kind :=
  match v with
  | Scalar _ => Some KS
  | Vector [] => None
  | Vector l => Some (KV (List.length l))
  | Matrix [] => None
  | Matrix ([] :: _) => None
  | Matrix (row :: m) =>
      if forallb (fun r => Nat.eqb (List.length r) (List.length row)) m then Some (KM (S (List.length m)) (List.length row)) else None
  end.
(** The kinds of the variables of a context. *)
Definition context_kinds (c : Ctx N) (n : str) : option kinds :=
  match find (fun v => str_eqb (var_name v) n) (vars c) with
  | Some w =>
      match map value_kind (var_values w) with
      | Some k :: _ =>
        match all_of k (all_some (map (fun v => option_map (fun k => (k, 1)) (value_kind v)) (var_values w))) with
        | Some ms => Some (k, List.length ms)
        | None => None
        end
      | _ => None
      end
  | None => None
  end.
(** The functions of a context. *)
Definition context_functions (c : Ctx N) (n : str) : option (MFun N) :=
  find (fun f => str_eqb (fun_name f) n) (funs c).
End Check.
