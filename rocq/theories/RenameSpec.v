(** * RenameSpec: renaming variables and functions. *)
From Coq Require Import List NArith ZArith Bool.
From Verif Require Import Base Num Types.
Import ListNotations.

Section Spec.
Context {N : Num}.
(** New names of the variables and of the functions. *)
Variables rho sigma : str -> str.
Fixpoint ren (a : AST N) : AST N :=
  match a with
  | AScalar s => AScalar s
  | AVar n => AVar (rho n)
  | AVector v => AVector (map ren v)
  | AMatrix m => AMatrix (map (map ren) m)
  | AList l => AList (map ren l)
  | AFun n args => AFun (sigma n) (map ren args)
  | AOp op l r => AOp op (ren l) (ren r)
  | AInt e x l u => AInt (ren e) (rho x) (ren l) (ren u)
  | ADer e x a => ADer (ren e) (rho x) (ren a)
  | AEq qs xs => AEq (map (fun q => (ren (fst q), ren (snd q))) qs) (map rho xs)
  end.
Definition ren_var (v : MVar N) : MVar N := mkVar (rho (var_name v)) (var_values v).
Definition ren_fun (f : MFun N) : MFun N := mkFun (sigma (fun_name f)) (ren (fun_ast f)) (map rho (fun_inputs f)).
Definition ren_ctx (c : Ctx N) : Ctx N := mkCtx (map ren_var (vars c)) (map ren_fun (funs c)).
(** Errors name names. *)
Definition ren_error (e : EvalError) : EvalError :=
  match e with
  | NoVariable n => NoVariable (rho n)
  | NoFunction n => NoFunction (sigma n)
  | e => e
  end.
Definition ren_result {X} (r : res EvalError X) : res EvalError X := map_err ren_error r.
End Spec.

Definition injective (f : str -> str) : Prop := forall a b, f a = f b -> a = b.

(** ** Names that are only local *)

(** Outcomes up to the name that "variable not found" gives. *)
Definition forget {X} (r : res EvalError X) : res EvalError X := ren_result (fun _ => []) (fun n => n) r.

Definition inverse (f g : str -> str) : Prop := (forall n, g (f n) = n) /\ (forall n, f (g n) = n).
(** Exchange the names [x] and [y]. *)
Definition swap (x y n : str) : str := if str_eqb n x then y else if str_eqb n y then x else n.

Section Local.
Context {N : Num}.
(** Rename variables, not functions. *)
Definition ren_vars (rho : str -> str) : AST N -> AST N := ren rho (fun n => n).
(** [fn'] is [fn] with its parameters and the other names of its body, except
    the names [U], called differently. *)
Definition alpha (U : str -> Prop) (fn fn' : MFun N) : Prop :=
  exists rho rho', inverse rho rho' /\ (forall n, U n -> rho n = n) /\
    fn' = mkFun (fun_name fn) (ren_vars rho (fun_ast fn)) (map rho (fun_inputs fn)).
End Local.
