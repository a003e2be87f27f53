(** * PropEval: properties of evaluation (C10-C18, C36, C40, C50). *)
From Coq Require Import List NArith ZArith Bool String Arith Lia.
From Verif Require Import Base BaseFacts F64 Num Types Maths Helpers Parser Eval SpecEval EvalFuel
  EvalProofs EvalTotal EvalRecursion ContextProofs Toy.
Import ListNotations.

Section Props.
Context {N : Num} {En : Env}.
Notation V := (Value N).

(** ** C10: the result of eval is unique *)
Theorem c10_outcome_unique (b : AST N) c r1 r2 : outcome b c r1 -> outcome b c r2 -> r1 = r2.
Proof. apply outcome_unique. Qed.

(** Whatever finite amounts of recursion depth suffice, they agree. *)
Theorem c10_depth_irrelevant (b : AST N) c f1 f2 :
  eval f1 b c <> Fuel -> eval f2 b c <> Fuel -> eval f1 b c = eval f2 b c.
Proof. apply eval_unique. Qed.

(** An outcome at some depth is the outcome. *)
Theorem c10_outcome_at_any_depth (b : AST N) c f : eval f b c <> Fuel -> outcome b c (eval f b c).
Proof. intros H. now eapply outcome_intro. Qed.

(** ** C11: termination without integrals and with acyclic functions *)
Theorem c11_terminates (b : AST N) c :
  no_integral b = true -> acyclic c -> exists r, outcome b c r.
Proof. apply eval_terminates. Qed.

(** ** C12: direct recursion is reported, indirect recursion loops *)
Theorem c12_direct_recursion_reported f args (c : Ctx N) :
  outcome_in f (AFun f args) c (Err RecursiveFunction).
Proof. apply call_recursive. Qed.

(** [f(p) = g(p)] and [g(q) = f(q)]: no call of [f] returns. *)
Theorem c12_mutual_recursion_diverges f g p q (c : Ctx N) a v vs :
  f <> g -> f <> [] ->
  lookup_fun c f = Some (mkFun f (AFun g [AVar p]) [p]) ->
  lookup_fun c g = Some (mkFun g (AFun f [AVar q]) [q]) ->
  outcome a c (Ok (v :: vs)) ->
  diverges (AFun f [a]) c.
Proof. apply mutual_recursion_diverges. Qed.

(** [f(p) = D(f(y), y, s)]: the recursion is hidden by the derivative. *)
Theorem c12_recursion_in_derivative_diverges f p y s (c : Ctx N) a v vs :
  f <> [] -> lookup_fun c f = Some (mkFun f (ADer (AFun f [AVar y]) y (AScalar s)) [p]) ->
  outcome a c (Ok (v :: vs)) ->
  diverges (AFun f [a]) c.
Proof. apply recursion_through_derivative_diverges. Qed.

(** ** C13: multi-valued operands *)
Theorem c13_operation_table op a b (c : Ctx N) lv rv res :
  outcome a c (Ok lv) -> outcome b c (Ok rv) ->
  (outcome (AOp op a b) c (Ok res) <-> is_table op lv rv res).
Proof.
  intros Ha Hb. change (outcome_in [] (AOp op a b) c (Ok res) <-> is_table op lv rv res).
  rewrite (op_outcome_iff [] c op a b lv rv) by assumption. rewrite grid_ok_iff.
  split; [now intros [_ H]|]. intros H; split; [discriminate|exact H].
Qed.

Theorem c13_first_failure_decides op a b (c : Ctx N) lv rv e :
  outcome a c (Ok lv) -> outcome b c (Ok rv) ->
  (outcome (AOp op a b) c (Err e) <-> exists s, e = MathError s /\ first_failure op lv rv s).
Proof.
  intros Ha Hb. change (outcome_in [] (AOp op a b) c (Err e) <-> exists s, e = MathError s /\ first_failure op lv rv s).
  rewrite (op_outcome_iff [] c op a b lv rv) by assumption. rewrite <- grid_err.
  split; [now intros [_ H]|]. intros H; split; [discriminate|exact H].
Qed.

Theorem c13_operand_errors op a b (c : Ctx N) e :
  (outcome a c (Err e) -> outcome (AOp op a b) c (Err e)) /\
  (forall lv, outcome a c (Ok lv) -> outcome b c (Err e) -> outcome (AOp op a b) c (Err e)).
Proof.
  split; [apply (op_outcome_left_err [])|]. intros lv. apply (op_outcome_right_err []).
Qed.

(** ** C14: vector and matrix literals *)

(** Position of the tuple with components [ks] in the list of all
    combinations: the last component varies fastest. *)
Fixpoint position {A} (ks : list nat) (ls : list (list A)) : nat :=
  match ks, ls with
  | k :: ks, _ :: ls => k * fold_right Nat.mul 1 (map (@List.length A) ls) + position ks ls
  | _, _ => 0
  end.

Lemma choices_position {A} (ls : list (list A)) ks t :
  Forall2 (fun k xl => nth_error (snd xl) k = Some (fst xl)) ks (combine t ls) ->
  List.length t = List.length ls ->
  nth_error (choices ls) (position ks ls) = Some t.
Proof.
  revert ks t; induction ls as [|l ls IH]; intros ks t H Hn.
  - destruct t; [|discriminate]. inversion H; subst. reflexivity.
  - destruct t as [|x t]; [discriminate|]. cbn in H. inversion H as [|k xl ks' rest Hk Hr]; subst. cbn in Hk.
    cbn [choices position]. rewrite <- choices_length.
    specialize (IH ks' t Hr ltac:(now injection Hn)).
    rewrite flat_map_concat_map.
    apply (proj2 (concat_grid (List.length (choices ls)) (map (fun x => map (cons x) (choices ls)) l)
      ltac:(intros ? Hx; apply in_map_iff in Hx as (? & <- & _); now rewrite map_length)) k (map (cons x) (choices ls))).
    + now rewrite nth_error_map, Hk.
    + now rewrite nth_error_map, IH.
Qed.

Theorem c14_vector_literal es (c : Ctx N) sss :
  Forall2 (fun e ss => outcome e c (Ok (map Scalar ss))) es sss ->
  outcome (AVector es) c (Ok (map Vector (choices sss))).
Proof. apply (vector_outcome []). Qed.

Theorem c14_matrix_literal rows (c : Ctx N) ssss :
  Forall2 (Forall2 (fun e ss => outcome e c (Ok (map Scalar ss)))) rows ssss ->
  outcome (AMatrix rows) c (Ok (map Matrix (choices (map choices ssss)))).
Proof. apply (matrix_outcome []). Qed.

Theorem c14_vector_of_non_scalar es1 e es2 (c : Ctx N) sss vs v :
  Forall2 (fun e ss => outcome e c (Ok (map Scalar ss))) es1 sss ->
  outcome e c (Ok vs) -> In v vs -> is_scalar v = false ->
  outcome (AVector (es1 ++ e :: es2)) c (Err NonScalarInVector).
Proof. apply (vector_outcome_nonscalar []). Qed.

Theorem c14_matrix_of_non_scalar rows1 es1 e es2 rows2 (c : Ctx N) ssss sss vs v :
  Forall2 (Forall2 (fun e ss => outcome e c (Ok (map Scalar ss)))) rows1 ssss ->
  Forall2 (fun e ss => outcome e c (Ok (map Scalar ss))) es1 sss ->
  outcome e c (Ok vs) -> In v vs -> is_scalar v = false ->
  outcome (AMatrix (rows1 ++ (es1 ++ e :: es2) :: rows2)) c (Err NonScalarInMatrix).
Proof. apply (matrix_outcome_nonscalar []). Qed.

(** Every combination occurs, at the place lexicographic order gives it, and
    there are as many as the product of the numbers of values. *)
Theorem c14_combinations {A} (ls : list (list A)) :
  List.length (choices ls) = fold_right Nat.mul 1 (map (@List.length A) ls) /\
  (forall t, In t (choices ls) <-> Forall2 (fun x l => In x l) t ls) /\
  (forall ks t, List.length t = List.length ls ->
     Forall2 (fun k xl => nth_error (snd xl) k = Some (fst xl)) ks (combine t ls) ->
     nth_error (choices ls) (position ks ls) = Some t).
Proof.
  split; [apply choices_length|]. split; [apply choices_in|].
  intros ks t Hn H. now apply choices_position.
Qed.

(** ** C15: variables and lists *)
Theorem c15_variable (c : Ctx N) n v :
  lookup_var c n = Some v -> outcome (AVar n) c (Ok (var_values v)).
Proof. intros H. pose proof (var_outcome [] c n) as Ho. now rewrite H in Ho. Qed.
Theorem c15_unknown_variable (c : Ctx N) n :
  (forall v, In v (vars c) -> var_name v <> n) -> outcome (AVar n) c (Err (NoVariable n)).
Proof.
  intros H. pose proof (var_outcome [] c n) as Ho. destruct (lookup_var c n) as [v|] eqn:E; [|exact Ho].
  apply find_some in E as [E1 E2]. apply str_eqb_eq in E2. now apply H in E1.
Qed.
Theorem c15_list (c : Ctx N) es vss :
  Forall2 (fun e vs => outcome e c (Ok vs)) es vss -> outcome (AList es) c (Ok (List.concat vss)).
Proof. apply (list_outcome []). Qed.
Theorem c15_list_error (c : Ctx N) es1 e es2 vss er :
  Forall2 (fun e vs => outcome e c (Ok vs)) es1 vss -> outcome e c (Err er) ->
  outcome (AList (es1 ++ e :: es2)) c (Err er).
Proof. apply (list_outcome_err []). Qed.

(** ** C16: function calls *)

(** The context in which the body of [fn] runs for the arguments [p]. *)
Definition binds (fn : MFun N) (p : list V) (outer inner : Ctx N) : Prop :=
  funs inner = funs outer /\
  forall n, lookup_var inner n =
    match find (fun nv => str_eqb (fst nv) n) (combine (fun_inputs fn) p) with
    | Some nv => Some (mkVar n [snd nv])
    | None => lookup_var outer n
    end.

Lemma call_vars_binds fn p (c : Ctx N) :
  binds fn p c (mkCtx (call_vars (fun_inputs fn) p (vars c)) (funs c)).
Proof.
  split; [reflexivity|]. intros n. rewrite lookup_call_vars.
  destruct (find _ _) as [nv|] eqn:E; [|now destruct c].
  apply find_some in E as [_ E]. apply str_eqb_eq in E. now rewrite E.
Qed.

(** A call: the arguments are evaluated in the caller's context, the body once
    per combination of argument values, in a context with the parameters bound
    to these values that otherwise shows the caller's variables; the results
    are appended. *)
Theorem c16_call name args (c : Ctx N) fn vss :
  name <> [] -> lookup_fun c name = Some fn ->
  List.length args = List.length (fun_inputs fn) ->
  Forall2 (fun e vs => outcome e c (Ok vs)) args vss ->
  exists inner : list V -> Ctx N,
    (forall p, In p (choices vss) -> binds fn p c (inner p)) /\
    (forall rs, Forall2 (fun p vs => outcome_in name (fun_ast fn) (inner p) (Ok vs)) (choices vss) rs ->
       outcome (AFun name args) c (Ok (List.concat rs))) /\
    (forall ps1 p ps2 rs e, choices vss = ps1 ++ p :: ps2 ->
       Forall2 (fun p vs => outcome_in name (fun_ast fn) (inner p) (Ok vs)) ps1 rs ->
       outcome_in name (fun_ast fn) (inner p) (Err e) ->
       outcome (AFun name args) c (Err e)).
Proof.
  intros Hn Hf Hl Ha. exists (fun p => mkCtx (call_vars (fun_inputs fn) p (vars c)) (funs c)).
  split; [intros; apply call_vars_binds|]. split.
  - intros rs Hrs. apply (call_outcome [] c name args fn vss rs); auto.
  - intros ps1 p ps2 rs e Hp Hrs He. eapply (call_outcome_body_err [] c name args fn vss); eauto.
Qed.

Theorem c16_unknown_function name args (c : Ctx N) :
  name <> [] -> lookup_fun c name = None -> outcome (AFun name args) c (Err (NoFunction name)).
Proof. intros; apply (call_unknown []); auto. Qed.
Theorem c16_wrong_number_of_arguments name args (c : Ctx N) fn :
  name <> [] -> lookup_fun c name = Some fn -> List.length args <> List.length (fun_inputs fn) ->
  outcome (AFun name args) c
    (Err (WrongNumberOfArgs (List.length (fun_inputs fn)) (List.length args))).
Proof. intros; apply (call_arity []); auto. Qed.
Theorem c16_argument_error name args1 a args2 (c : Ctx N) fn vss e :
  name <> [] -> lookup_fun c name = Some fn ->
  List.length (args1 ++ a :: args2) = List.length (fun_inputs fn) ->
  Forall2 (fun e vs => outcome e c (Ok vs)) args1 vss -> outcome a c (Err e) ->
  outcome (AFun name (args1 ++ a :: args2)) c (Err e).
Proof. intros. eapply (call_arg_err []); eauto. Qed.

(** ** C17: only the bindings of names that occur matter *)

(** [n] occurs in [b], or in the body of a function of [c] without being one of
    its parameters. *)
Definition occurs (n : str) (b : AST N) (c : Ctx N) : Prop :=
  In n (mentions b) \/
  exists m fn, lookup_fun c m = Some fn /\ In n (mentions (fun_ast fn)) /\ ~ In n (fun_inputs fn).

(** A context built through the API has no name twice (C18). *)
Definition distinct_names (c : Ctx N) : Prop := NoDup (map var_name (vars c)).

Lemma named_distinct (c : Ctx N) n : distinct_names c ->
  named n (vars c) = match lookup_var c n with Some v => [v] | None => [] end.
Proof.
  intros H. unfold lookup_var, named, distinct_names in *. induction (vars c) as [|v l IH]; cbn; [reflexivity|].
  inversion H as [|? ? Hv Hl]; subst. destruct (str_eqb_spec (var_name v) n) as [E|E]; [|auto].
  f_equal. rewrite IH by assumption. destruct (find _ l) as [w|] eqn:Ew; [|reflexivity].
  apply find_some in Ew as [Ew1 Ew2]. apply str_eqb_eq in Ew2. exfalso. apply Hv. rewrite E, <- Ew2.
  now apply in_map.
Qed.

Theorem c17_only_bindings_matter (b : AST N) c1 c2 :
  distinct_names c1 -> distinct_names c2 ->
  (forall n, occurs n b c1 -> lookup_var c1 n = lookup_var c2 n) ->
  (forall n, lookup_fun c1 n = lookup_fun c2 n) ->
  (forall r, outcome b c1 r <-> outcome b c2 r) /\ (diverges b c1 <-> diverges b c2).
Proof.
  intros D1 D2 Hv Hf.
  assert (E : forall f, eval f b c1 = eval f b c2).
  { intros f. apply (eval_agree_free (fun n => occurs n b c1) f (fun n => occurs n b c1)).
    - auto.
    - intros n Hn. now left.
    - split; [|split].
      + intros n Hn. rewrite !named_distinct by assumption. now rewrite Hv.
      + exact Hf.
      + intros m fn Hm n Hn. destruct (in_dec (list_eq_dec N.eq_dec) n (fun_inputs fn)) as [Hi|Hi]; [now left|right].
        right. exists m, fn. auto. }
  split.
  - intros r; unfold outcome. split; intros [H [f0 H0]]; (split; [exact H|]); exists f0; intros f Hle;
      [rewrite <- E|rewrite E]; auto.
  - unfold diverges. split; intros H f; [rewrite <- E|rewrite E]; auto.
Qed.

(** ** C18: a context is a map *)
Inductive ctx_op : Type :=
| AddVar (v : MVar N) | AddFun (f : MFun N) | RemoveVar (n : str) | RemoveFun (n : str).
Definition apply_ctx_op (c : Ctx N) (o : ctx_op) : Ctx N :=
  match o with
  | AddVar v => add_var c v | AddFun f => add_fun c f
  | RemoveVar n => remove_var c n | RemoveFun n => remove_fun c n
  end.
Definition history (c : Ctx N) (ops : list ctx_op) : Ctx N := fold_left apply_ctx_op ops c.

(** The specification: a finite map updated by each call. *)
Definition var_after (n : str) (old : option (MVar N)) (o : ctx_op) : option (MVar N) :=
  match o with
  | AddVar v => if str_eqb (var_name v) n then Some v else old
  | RemoveVar m => if str_eqb m n then None else old
  | _ => old
  end.
Definition fun_after (n : str) (old : option (MFun N)) (o : ctx_op) : option (MFun N) :=
  match o with
  | AddFun f => if str_eqb (fun_name f) n then Some f else old
  | RemoveFun m => if str_eqb m n then None else old
  | _ => old
  end.

Lemma find_filter_neg {A} (nm : A -> str) m n l :
  find (fun w => str_eqb (nm w) n) (filter (fun w => negb (str_eqb (nm w) m)) l) =
  if str_eqb m n then None else find (fun w => str_eqb (nm w) n) l.
Proof.
  induction l as [|w l IH]; cbn; [now destruct (str_eqb m n)|].
  destruct (str_eqb_spec (nm w) m) as [E|E]; cbn.
  - rewrite IH. destruct (str_eqb_spec m n) as [E2|E2]; [reflexivity|].
    destruct (str_eqb_spec (nm w) n); [congruence|reflexivity].
  - destruct (str_eqb_spec (nm w) n) as [E2|E2]; [|exact IH].
    destruct (str_eqb_spec m n); [congruence|reflexivity].
Qed.

Lemma NoDup_filter_add {A} (nm : A -> str) v l :
  NoDup (map nm l) -> NoDup (map nm (filter (fun w => negb (str_eqb (nm w) (nm v))) l ++ [v])).
Proof.
  intros H. rewrite map_app. cbn. apply NoDup_Add with (a := nm v) (l := map nm (filter (fun w => negb (str_eqb (nm w) (nm v))) l)).
  - rewrite <- (app_nil_r (map nm _)) at 1. apply Add_app.
  - split.
    + induction l as [|w l IH]; cbn; [constructor|]. inversion H; subst.
      destruct (str_eqb (nm w) (nm v)); cbn; auto. constructor; auto.
      intros Hin. apply in_map_iff in Hin as (u & Hu & Hin). apply filter_In in Hin as [Hin _].
      apply H2. rewrite <- Hu. now apply in_map.
    + intros Hin. apply in_map_iff in Hin as (u & Hu & Hin). apply filter_In in Hin as [_ Hin].
      rewrite Hu, str_eqb_refl in Hin. discriminate.
Qed.
Lemma NoDup_filter_names {A} (nm : A -> str) p l : NoDup (map nm l) -> NoDup (map nm (filter p l)).
Proof.
  induction l as [|w l IH]; cbn; intros H; [constructor|]. inversion H; subst.
  destruct (p w); cbn; auto. constructor; auto.
  intros Hin. apply in_map_iff in Hin as (u & Hu & Hin). apply filter_In in Hin as [Hin _].
  apply H2. rewrite <- Hu. now apply in_map.
Qed.

Theorem c18_context_is_a_map c0 ops :
  c0 = ctx_default \/ c0 = ctx_empty ->
  let c := history c0 ops in
  (forall n, lookup_var c n = fold_left (var_after n) ops (lookup_var c0 n)) /\
  (forall n, lookup_fun c n = fold_left (fun_after n) ops (lookup_fun c0 n)) /\
  NoDup (map var_name (vars c)) /\ NoDup (map fun_name (funs c)).
Proof.
  intros H0 c.
  assert (D0 : NoDup (map var_name (vars c0)) /\ NoDup (map fun_name (funs c0))).
  { destruct H0 as [-> | ->]; cbn; repeat constructor; cbn; intuition discriminate. }
  clear H0. destruct D0 as [D1 D2]. unfold c; clear c.
  revert c0 D1 D2; induction ops as [|o ops IH]; intros c0 D1 D2; cbn [history fold_left]; [auto|].
  change (fold_left apply_ctx_op ops (apply_ctx_op c0 o)) with (history (apply_ctx_op c0 o) ops).
  assert (E1 : forall n, lookup_var (apply_ctx_op c0 o) n = var_after n (lookup_var c0 n) o).
  { intros n. destruct o; cbn; try reflexivity; unfold lookup_var; cbn.
    - rewrite find_app, find_filter_neg. cbn. destruct (str_eqb (var_name v) n); [reflexivity|].
      now destruct (find _ (vars c0)).
    - apply find_filter_neg. }
  assert (E2 : forall n, lookup_fun (apply_ctx_op c0 o) n = fun_after n (lookup_fun c0 n) o).
  { intros n. destruct o; cbn; try reflexivity; unfold lookup_fun; cbn.
    - rewrite find_app, find_filter_neg. cbn. destruct (str_eqb (fun_name f) n); [reflexivity|].
      now destruct (find _ (funs c0)).
    - apply find_filter_neg. }
  destruct (IH (apply_ctx_op c0 o)) as (H1 & H2 & H3 & H4).
  - destruct o; cbn; auto using NoDup_filter_add, NoDup_filter_names.
  - destruct o; cbn; auto using NoDup_filter_add, NoDup_filter_names.
  - repeat split; auto; intros n; [rewrite H1, E1|rewrite H2, E2]; reflexivity.
Qed.

(** A context built from lists of definitions gives each name its first
    definition in the list, and no other name a definition; [from_vars] has no
    functions and [from_funs] no variables. *)
Theorem c18_constructors (vs : list (MVar N)) (fs : list (MFun N)) :
  (forall l1 v l2, vs = l1 ++ v :: l2 -> ~ In (var_name v) (map var_name l1) ->
     outcome (AVar (var_name v)) (ctx_new vs fs) (Ok (var_values v)) /\
     outcome (AVar (var_name v)) (ctx_from_vars vs) (Ok (var_values v))) /\
  (forall l1 f l2, fs = l1 ++ f :: l2 -> ~ In (fun_name f) (map fun_name l1) ->
     lookup_fun (ctx_new vs fs) (fun_name f) = Some f /\
     lookup_fun (ctx_from_funs fs) (fun_name f) = Some f) /\
  (forall n, ~ In n (map var_name vs) ->
     outcome (AVar n) (ctx_new vs fs) (Err (NoVariable n)) /\
     outcome (AVar n) (ctx_from_vars vs) (Err (NoVariable n))) /\
  (forall n args, n <> [] -> ~ In n (map fun_name fs) ->
     outcome (AFun n args) (ctx_new vs fs) (Err (NoFunction n)) /\
     outcome (AFun n args) (ctx_from_funs fs) (Err (NoFunction n))) /\
  (forall n args, n <> [] -> outcome (AFun n args) (ctx_from_vars vs) (Err (NoFunction n))) /\
  (forall n, outcome (AVar n) (ctx_from_funs fs) (Err (NoVariable n))).
Proof.
  assert (F : forall {A} (nm : A -> str) l1 v l2, ~ In (nm v) (map nm l1) ->
            find (fun w => str_eqb (nm w) (nm v)) (l1 ++ v :: l2) = Some v).
  { intros A nm l1 v l2 H. induction l1 as [|w l IH]; cbn [app find].
    - now rewrite str_eqb_refl.
    - destruct (str_eqb_spec (nm w) (nm v)) as [E|E].
      + destruct H. left. exact E.
      + apply IH. intros Hin. apply H. now right. }
  assert (G : forall {A} (nm : A -> str) l n, ~ In n (map nm l) -> find (fun w => str_eqb (nm w) n) l = None).
  { intros A nm l n H. induction l as [|w l IH]; cbn [find]; [reflexivity|].
    destruct (str_eqb_spec (nm w) n) as [E|E]; [destruct H; left; exact E|]. apply IH. intros Hin. apply H. now right. }
  split; [|split; [|split; [|split; [|split]]]].
  - intros l1 v l2 -> H. split; apply c15_variable; exact (F _ _ l1 v l2 H).
  - intros l1 f l2 -> H. split; exact (F _ _ l1 f l2 H).
  - intros n H. split; apply c15_unknown_variable; intros v Hv E; apply H; rewrite <- E; now apply in_map.
  - intros n args Hn H. split; apply c16_unknown_function; auto; exact (G _ _ fs n H).
  - intros n args Hn. now apply c16_unknown_function.
  - intros n. apply c15_unknown_variable. intros v [].
Qed.

(** ** C36: internal solver signals do not escape *)
Theorem c36_internal_errors_do_not_escape (b : AST N) c e :
  outcome b c (Err e) -> e <> InfiniteSolutions /\ e <> NaNOrInf /\ e <> ExpressionCheckFailed.
Proof. intros H. apply internal_never_escapes in H. unfold internal in H. tauto. Qed.

(** ** C40: quick_eval is parse followed by eval *)
Definition quick_outcome (s : str) (c : Ctx N) (r : res QuickEvalError (list V)) : Prop :=
  r <> Fuel /\ exists f0, forall f, f0 <= f -> quick_eval f s c = r.

Theorem c40_quick_eval s (c : Ctx N) :
  (forall v, quick_outcome s c (Ok v) <-> exists b, parse s = Ok b /\ outcome b c (Ok v)) /\
  (forall e, quick_outcome s c (Err (QParserError e)) <-> parse s = Err e) /\
  (forall e, quick_outcome s c (Err (QEvalError e)) <-> exists b, parse s = Ok b /\ outcome b c (Err e)) /\
  ~ quick_outcome s c (Err DuplicateVars).
Proof.
  unfold quick_outcome, outcome, quick_eval.
  destruct (parse s) as [b|e| |]; cbn [map_err bind].
  - assert (Hok : forall f r, map_err QEvalError (eval f b c) = Ok r <-> eval f b c = Ok r).
    { intros f r; destruct (eval f b c); cbn; split; congruence. }
    assert (Her : forall f r, map_err QEvalError (eval f b c) = Err (QEvalError r) <-> eval f b c = Err r).
    { intros f r; destruct (eval f b c); cbn; split; congruence. }
    repeat apply conj.
    + intros v; split.
      * intros [_ [f0 H]]. exists b. repeat split; try discriminate. exists f0. intros f Hf. now apply Hok, H.
      * intros (b' & E & _ & f0 & H). injection E as <-. split; [discriminate|]. exists f0. intros f Hf. now apply Hok, H.
    + intros e; split; [|discriminate]. intros [_ [f0 H]]. specialize (H f0 (le_n _)).
      destruct (eval f0 b c); discriminate.
    + intros v; split.
      * intros [_ [f0 H]]. exists b. repeat split; try discriminate. exists f0. intros f Hf. now apply Her, H.
      * intros (b' & E & _ & f0 & H). injection E as <-. split; [discriminate|]. exists f0. intros f Hf. now apply Her, H.
    + intros [_ [f0 H]]. specialize (H f0 (le_n _)). destruct (eval f0 b c); discriminate.
  - repeat apply conj.
    + intros v; split; [intros [_ [f0 H]]; specialize (H f0 (le_n _)); discriminate|intros (b & H & _); discriminate].
    + intros e'; split.
      * intros [_ [f0 H]]. specialize (H f0 (le_n _)). injection H as ->. reflexivity.
      * intros H; injection H as ->. split; [discriminate|]. exists 0; reflexivity.
    + intros v; split; [intros [_ [f0 H]]; specialize (H f0 (le_n _)); discriminate|intros (b & H & _); discriminate].
    + intros [_ [f0 H]]. specialize (H f0 (le_n _)). discriminate.
  - repeat apply conj; intros; try split; try (intros [_ [f0 H]]; specialize (H f0 (le_n _)); discriminate);
      try (intros (b & H & _); discriminate); discriminate.
  - repeat apply conj; intros; try split; try (intros [_ [f0 H]]; specialize (H f0 (le_n _)); discriminate);
      try (intros (b & H & _); discriminate); discriminate.
Qed.

(** ** C50: a literal value evaluates to itself *)
Theorem c50_literal_value (v : V) (c : Ctx N) : outcome (ast_from_value v) c (Ok [v]).
Proof. apply (from_value_outcome []). Qed.
End Props.

(** ** Concrete cases *)
Module Examples.
#[local] Existing Instance NT.
#[local] Existing Instance ET.
Open Scope string_scope.

Definition body1 : AST NT := AOp OAdd (AVar (lit "x")) (AScalar (num 1)).
(** f(x) = x + 1, g(y) = f(y) * f(2) *)
Definition c1 : Ctx NT := mkCtx [mkVar (lit "x") [sc 7; sc 8]]
  [mkFun (lit "f") body1 [lit "x"];
   mkFun (lit "g") (AOp OMult (AFun (lit "f") [AVar (lit "y")]) (AFun (lit "f") [AScalar (num 2)])) [lit "y"]].

Example c11_hypotheses : acyclic c1.
Proof.
  exists (fun n => if str_eqb n (lit "g") then 1 else 0). intros fn [<-|[<-|[]]]; cbn; split; auto; easy || intuition; subst; cbn; lia.
Qed.
(** Two values of x: two results; {8*3, 9*3} *)
Example c16_two_results :
  eval 10 (AFun (lit "g") [AVar (lit "x")]) c1 = Ok [sc 24; sc 27].
Proof. apply res_same_ok. vm_compute. reflexivity. Qed.

Definition c2 : Ctx NT := mkCtx []
  [mkFun (lit "f") (AFun (lit "g") [AVar (lit "x")]) [lit "x"];
   mkFun (lit "g") (AFun (lit "f") [AVar (lit "x")]) [lit "x"]].
Example c12_hypotheses : diverges (AFun (lit "f") [AScalar (num 1)]) c2.
Proof.
  eapply c12_mutual_recursion_diverges with (g := lit "g") (vs := []); try reflexivity; try discriminate.
  apply (scalar_outcome []).
Qed.

(** {1,2} & {10,20}: four pairs, eight values. *)
Example c13_eight_values :
  is_table OAddSub [sc 1; sc 2] [sc 10; sc 20]
    [sc 11; sc (-9); sc 21; sc (-19); sc 12; sc (-8); sc 22; sc (-18)].
Proof. apply grid_ok_iff, res_same_ok. vm_compute. reflexivity. Qed.
(** {1,[1]} + {1,[1],2}: (1,[1]) is the first failing pair. *)
Example c13_failure : first_failure OAdd [sc 1; ve [1]%Z] [sc 1; ve [1]%Z; sc 2] "Can't add vector to scalar!".
Proof.
  assert (H : grid OAdd [sc 1; ve [1]%Z] [sc 1; ve [1]%Z; sc 2] = Err (MathError "Can't add vector to scalar!"))
    by (apply err_of_eq; vm_compute; reflexivity).
  apply grid_err in H as (s & E & H). injection E as <-. exact H.
Qed.
Example c14_choices : choices [[1; 2]; [3]; [4; 5]] = [[1; 3; 4]; [1; 3; 5]; [2; 3; 4]; [2; 3; 5]].
Proof. reflexivity. Qed.
(** [[1, 2], [{3, [4]}, x]]: a vector among the values of the third entry. *)
Example c14_matrix_error :
  outcome (AMatrix [[AScalar (num 1); AScalar (num 2)]; [AList [AScalar (num 3); AVector [AScalar (num 4)]]; AVar (lit "x")]]) c1 (Err NonScalarInMatrix).
Proof.
  apply (c14_matrix_of_non_scalar [[AScalar (num 1); AScalar (num 2)]] [] (AList [AScalar (num 3); AVector [AScalar (num 4)]]) [AVar (lit "x")] []
    c1 [[[num 1]; [num 2]]] [] [sc 3; ve [4]%Z] (ve [4]%Z)).
  - constructor; [|constructor]. constructor; [apply (scalar_outcome [])|]. constructor; [apply (scalar_outcome [])|constructor].
  - constructor.
  - apply (list_outcome [] c1 [AScalar (num 3); AVector [AScalar (num 4)]] [[sc 3]; [ve [4]%Z]]).
    constructor; [apply (scalar_outcome [])|]. constructor; [|constructor]. apply (from_value_outcome [] c1 (ve [4]%Z)).
  - cbn. auto.
  - reflexivity.
Qed.
(** Reordered contexts, an irrelevant variable more. *)
(** A function whose parameter x is also a variable of one of the contexts. *)
Example c17_hypotheses :
  let f := mkFun (lit "f") (AOp OAdd (AVar (lit "x")) (AVar (lit "b"))) [lit "x"] in
  let c1 := mkCtx [mkVar (lit "a") [sc 1]; mkVar (lit "b") [sc 2]] [f] in
  let c2 := mkCtx [mkVar (lit "x") [sc 9]; mkVar (lit "b") [sc 2]; mkVar (lit "a") [sc 1]] [f] in
  let b := AOp OSub (AVar (lit "a")) (AFun (lit "f") [AVar (lit "b")]) in
  distinct_names c1 /\ distinct_names c2 /\ (forall n, occurs n b c1 -> lookup_var c1 n = lookup_var c2 n) /\
  (forall n, lookup_fun c1 n = lookup_fun c2 n).
Proof.
  cbn zeta. repeat split.
  - repeat constructor; cbn; intuition discriminate.
  - repeat constructor; cbn; intuition discriminate.
  - intros n [H|(m & fn & H & H1 & H2)].
    + cbn in H. destruct H as [<-|[<-|[]]]; reflexivity.
    + unfold lookup_fun in H. cbn [funs find] in H. destruct (str_eqb _ m); [|discriminate]. injection H as <-.
      cbn in H1, H2. destruct H1 as [<-|[<-|[]]]; [exfalso; apply H2; now left|reflexivity].
Qed.
End Examples.
