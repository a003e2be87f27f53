(** * EvalRecursion: what happens to recursive functions. *)
From Coq Require Import List NArith ZArith Bool Lia Arith String.
From Verif Require Import Base BaseFacts F64 Num Types Maths Helpers Parser Eval EvalFuel SpecEval EvalProofs.
Import ListNotations.

Section Rec.
Context {N : Num} {En : Env}.
Notation V := (Value N).

Lemma lookup_first_param (p : str) (v : V) outer fs :
  lookup_var (mkCtx (call_vars [p] [v] outer) fs) p = Some (mkVar p [v]).
Proof.
  unfold lookup_var, call_vars; cbn [vars combine map fst snd].
  assert (H : forall acc rest, exists t, fold_left push_unshadowed rest (mkVar p [v] :: acc) = mkVar p [v] :: t).
  { intros acc rest; revert acc; induction rest as [|w rest IH]; intros acc; cbn; [eauto|].
    unfold push_unshadowed at 2. destruct (existsb _ _); [apply IH|]. apply (IH (acc ++ [w])). }
  destruct (H [] outer) as [t ->]. cbn. now rewrite str_eqb_refl.
Qed.

Lemma eval_var_S n x (c : Ctx N) l :
  eval_rec (S n) (AVar x) c l = match lookup_var c x with Some v => Ok (var_values v) | None => Err (NoVariable x) end.
Proof. reflexivity. Qed.

(** [f(p) = g(p)], [g(q) = f(q)]: evaluation never comes back. *)
Lemma mutual_loop f g p q fs :
  f <> g ->
  (forall vs, lookup_fun (mkCtx vs fs) f = Some (mkFun f (AFun g [AVar p]) [p])) ->
  (forall vs, lookup_fun (mkCtx vs fs) g = Some (mkFun g (AFun f [AVar q]) [q])) ->
  forall n (v : V) outer,
    eval_rec n (AFun g [AVar p]) (mkCtx (call_vars [p] [v] outer) fs) f = Fuel /\
    eval_rec n (AFun f [AVar q]) (mkCtx (call_vars [q] [v] outer) fs) g = Fuel.
Proof.
  intros Hfg Hf Hg. induction n as [|n IH]; intros v outer; [now split|].
  assert (Efg : str_eqb f g = false) by now apply str_eqb_neq.
  assert (Egf : str_eqb g f = false) by now rewrite str_eqb_sym.
  split; cbn [eval_rec].
  - rewrite Efg, Hg. cbn [fun_inputs fun_ast List.length Nat.eqb negb mapM].
    destruct n as [|n]; [reflexivity|].
    rewrite eval_var_S, lookup_first_param. cbn [var_values bind].
    cbn [cart_prod fold_left cart_step flat_map map app concatM mapM].
    unfold concatM; cbn [mapM vars funs].
    destruct (IH v (call_vars [p] [v] outer)) as [_ H]. cbn [vars funs] in *. rewrite H. reflexivity.
  - rewrite Egf, Hf. cbn [fun_inputs fun_ast List.length Nat.eqb negb mapM].
    destruct n as [|n]; [reflexivity|].
    rewrite eval_var_S, lookup_first_param. cbn [var_values bind].
    cbn [cart_prod fold_left cart_step flat_map map app concatM mapM].
    unfold concatM; cbn [mapM vars funs].
    destruct (IH v (call_vars [q] [v] outer)) as [H _]. cbn [vars funs] in *. rewrite H. reflexivity.
Qed.

Theorem mutual_recursion_diverges f g p q (c : Ctx N) a v vs :
  f <> g -> f <> [] ->
  lookup_fun c f = Some (mkFun f (AFun g [AVar p]) [p]) ->
  lookup_fun c g = Some (mkFun g (AFun f [AVar q]) [q]) ->
  outcome a c (Ok (v :: vs)) ->
  diverges (AFun f [a]) c.
Proof.
  intros Hfg Hf0 Hf Hg Ha n. unfold eval. destruct n as [|n]; [reflexivity|]. cbn [eval_rec].
  assert (E0 : str_eqb [] f = false) by (apply str_eqb_neq; congruence). rewrite E0, Hf.
  cbn [fun_inputs fun_ast List.length Nat.eqb negb mapM].
  destruct (eval_rec n a c []) as [ws|e| |] eqn:Ea.
  - assert (ws = v :: vs) as ->.
    { assert (Hw : outcome a c (Ok ws)) by (eapply outcome_intro; [exact Ea|discriminate]).
      pose proof (outcome_unique _ _ _ _ Hw Ha) as E. now injection E. }
    cbn [bind]. cbn [cart_prod fold_left cart_step flat_map map app].
    unfold concatM; cbn [mapM].
    assert (Hf' : forall vs0, lookup_fun (mkCtx vs0 (funs c)) f = Some (mkFun f (AFun g [AVar p]) [p])) by (intros; exact Hf).
    assert (Hg' : forall vs0, lookup_fun (mkCtx vs0 (funs c)) g = Some (mkFun g (AFun f [AVar q]) [q])) by (intros; exact Hg).
    destruct (mutual_loop f g p q (funs c) Hfg Hf' Hg' n v (vars c)) as [H _]. rewrite H. reflexivity.
  - assert (Hw : outcome a c (Err e)) by (eapply outcome_intro; [exact Ea|discriminate]).
    pose proof (outcome_unique _ _ _ _ Hw Ha); discriminate.
  - assert (Hw : outcome a c Panic) by (eapply outcome_intro; [exact Ea|discriminate]).
    pose proof (outcome_unique _ _ _ _ Hw Ha); discriminate.
  - reflexivity.
Qed.

(** A function that calls itself inside a derivative is not reported
    either: [f(p) = D(f(y), y, s)]. *)
Theorem recursion_through_derivative_diverges f p y s (c : Ctx N) a v vs :
  f <> [] -> lookup_fun c f = Some (mkFun f (ADer (AFun f [AVar y]) y (AScalar s)) [p]) ->
  outcome a c (Ok (v :: vs)) ->
  diverges (AFun f [a]) c.
Proof.
  intros Hf0 Hf Ha.
  assert (E0 : str_eqb [] f = false) by (apply str_eqb_neq; congruence).
  assert (Hlk : forall vs0 v0, lookup_var (mkCtx (filter (fun w => negb (str_eqb (var_name w) y))
                (filter (fun w => negb (str_eqb (var_name w) y)) vs0) ++ [mkVar y [v0]]) (funs c)) y
              = Some (mkVar y [v0] : MVar N)).
  { intros vs0 v0. unfold lookup_var; cbn [vars].
    assert (H : forall l, find (fun w => str_eqb (var_name w) y) (filter (fun w => negb (str_eqb (var_name w) y)) l) = None).
    { intros l; induction l as [|w l IH]; cbn; [reflexivity|].
      destruct (str_eqb (var_name w) y) eqn:E; cbn; [exact IH|]. now rewrite E. }
    induction (filter _ vs0) as [|w l IH]; cbn; [now rewrite str_eqb_refl|].
    destruct (str_eqb (var_name w) y) eqn:E; cbn; [exact IH|]. now rewrite E. }
  assert (Hbody : forall n l vs0,
     eval_rec n (ADer (AFun f [AVar y]) y (AScalar s)) (mkCtx vs0 (funs c)) l = Fuel).
  { induction n as [n IH] using lt_wf_ind; intros l vs0.
    destruct n as [|n]; [reflexivity|]. cbn [eval_rec].
    destruct n as [|n]; [reflexivity|]. cbn [eval_rec bind].
    unfold concatM; cbn [mapM]. unfold calculate_derivative; cbn [fst].
    set (c1 := add_var _ _). cbn [eval_rec]. rewrite E0.
    change (lookup_fun c1 f) with (lookup_fun c f). rewrite Hf.
    cbn [fun_inputs fun_ast List.length Nat.eqb negb mapM].
    destruct n as [|n]; [reflexivity|].
    rewrite eval_var_S. unfold c1 at 1, add_var, remove_var; cbn [vars funs var_name]. rewrite Hlk.
    cbn [var_values bind]. cbn [cart_prod fold_left cart_step flat_map map app].
    unfold concatM; cbn [mapM].
    change (funs c1) with (funs c).
    pose proof (IH (S n)) as IH'. rewrite IH'; [reflexivity|lia]. }
  intros n. unfold eval. destruct n as [|n]; [reflexivity|]. cbn [eval_rec]. rewrite E0, Hf.
  cbn [fun_inputs fun_ast List.length Nat.eqb negb mapM].
  destruct (eval_rec n a c []) as [ws|e| |] eqn:Ea; [| | |reflexivity].
  - assert (ws = v :: vs) as ->.
    { assert (Hw : outcome a c (Ok ws)) by (eapply outcome_intro; [exact Ea|discriminate]).
      pose proof (outcome_unique _ _ _ _ Hw Ha) as E. now injection E. }
    cbn [bind]. cbn [cart_prod fold_left cart_step flat_map map app].
    unfold concatM; cbn [mapM]. rewrite Hbody. reflexivity.
  - assert (Hw : outcome a c (Err e)) by (eapply outcome_intro; [exact Ea|discriminate]).
    pose proof (outcome_unique _ _ _ _ Hw Ha); discriminate.
  - assert (Hw : outcome a c Panic) by (eapply outcome_intro; [exact Ea|discriminate]).
    pose proof (outcome_unique _ _ _ _ Hw Ha); discriminate.
Qed.
End Rec.
