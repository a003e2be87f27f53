(** * C68: the choice of names does not matter *)
From Coq Require Import List NArith ZArith Bool Lia Arith String FinFun.
From Verif Require Import Base BaseFacts F64 Num Types Maths Helpers Parser Eval EvalFuel SpecEval EvalProofs ContextProofs Toy PropEval RenameSpec Rename Alpha.
Import ListNotations.
Local Open Scope list_scope.

Section Props.
Context {N : Num} {En : Env}.
Notation V := (Value N).

(** ** Renaming everything *)

(** If all variables and all functions get new names, different ones for
    different ones, in an expression and in the context, then the outcome is the
    same, with the new names in the errors. *)
Theorem c68_rename rho sigma (a : AST N) (c : Ctx N) :
  injective rho -> injective sigma -> sigma [] = [] ->
  (forall r, outcome a c r -> outcome (ren rho sigma a) (ren_ctx rho sigma c) (ren_result rho sigma r)) /\
  (forall r', outcome (ren rho sigma a) (ren_ctx rho sigma c) r' -> exists r, outcome a c r /\ r' = ren_result rho sigma r) /\
  (diverges a c <-> diverges (ren rho sigma a) (ren_ctx rho sigma c)).
Proof.
  intros Hr Hs Hn.
  assert (E : forall f, eval f (ren rho sigma a) (ren_ctx rho sigma c) = ren_result rho sigma (eval f a c)).
  { intros f. unfold eval. rewrite <- (eval_ren rho sigma Hr Hs Hn). now rewrite Hn. }
  split; [|split].
  - intros r [H1 [f0 H2]]. split; [intros F; apply H1; destruct r; try discriminate F; reflexivity|]. exists f0. intros f Hf. now rewrite E, H2.
  - intros r' [H1 [f0 H2]]. exists (eval f0 a c). pose proof (H2 f0 (le_n _)) as H3. rewrite E in H3. split; [|now symmetry].
    eapply outcome_intro; [reflexivity|]. intros F. rewrite F in H3. cbn in H3. congruence.
  - unfold diverges. split; intros D f; [now rewrite E, D|]. specialize (D f). rewrite E in D. destruct (eval f a c); try discriminate D. reflexivity.
Qed.

(** ** Local names *)

(** Equal outcomes, except for the name that "variable not found" gives. *)
Definition same_up_to_name (a : AST N) (c : Ctx N) (b : AST N) (d : Ctx N) : Prop :=
  (forall r, outcome a c r -> exists r', outcome b d r' /\ forget r' = forget r) /\
  (forall r', outcome b d r' -> exists r, outcome a c r /\ forget r = forget r') /\
  (diverges a c <-> diverges b d).
Lemma forget_fuel {A} (r : res EvalError A) : forget r = Fuel -> r = Fuel.
Proof. destruct r; cbn; congruence. Qed.
Lemma same_intro a c b d : (forall f, forget (eval f a c) = forget (eval f b d)) -> same_up_to_name a c b d.
Proof.
  assert (G : forall a c b d, (forall f, forget (eval f a c) = forget (eval f b d)) -> forall r, outcome a c r -> exists r', outcome b d r' /\ forget r' = forget r).
  { clear. intros a c b d E r [H1 [f0 H2]]. specialize (H2 f0 (le_n _)). exists (eval f0 b d). split; [|now rewrite <- E, H2].
    eapply outcome_intro; [reflexivity|]. intros F. specialize (E f0). rewrite F, H2 in E. apply H1, forget_fuel. exact E. }
  assert (D : forall a c b d, (forall f, forget (eval f a c) = forget (eval f b d)) -> diverges a c -> diverges b d).
  { clear. intros a c b d E D f. apply forget_fuel. now rewrite <- E, D. }
  intros E. split; [now apply G|]. split; [apply G; now symmetry|]. split; [now apply D|apply D; now symmetry].
Qed.
(** In particular one succeeds with the values with which the other does. *)
Theorem c68_same_values a c b d : same_up_to_name a c b d -> forall vs, outcome a c (Ok vs) <-> outcome b d (Ok vs).
Proof.
  intros (H1 & H2 & _) vs. split; intros H; [apply H1 in H|apply H2 in H]; destruct H as ([r|e| |] & H & E); cbn in E; try discriminate E; injection E as ->; exact H.
Qed.

(** The names that some function of [c] mentions beside its parameters: a
    function sees the variables of its caller. *)
Definition shared (c : Ctx N) (n : str) : Prop :=
  exists fn, In fn (funs c) /\ In n (mentions (fun_ast fn)) /\ ~ In n (fun_inputs fn).
Lemma shared_within (c : Ctx N) : Forall (fun fn => within (fun n => In n (fun_inputs fn) \/ shared c n) (fun_ast fn)) (funs c).
Proof.
  apply Forall_forall. intros fn Hfn n Hn. destruct (in_dec (list_eq_dec N.eq_dec) n (fun_inputs fn)) as [Hi|Hi]; [now left|right].
  exists fn. auto.
Qed.

(** The names of the parameters and other local names of the functions do not
    matter, as long as no function uses them as names of its caller. *)
Theorem c68_function_definitions (a : AST N) c d :
  vars c = vars d -> Forall2 (alpha (shared c)) (funs c) (funs d) -> same_up_to_name a c a d.
Proof.
  intros Hv Hf. apply same_intro. intros f. apply (eval_alpha (shared c) f (fun _ => True)); [auto|intros n _; exact I|].
  split; [now rewrite Hv|]. split; [exact Hf|apply shared_within].
Qed.

Lemma renamed_funs rho rho' (c : Ctx N) : inverse rho rho' -> (forall n, shared c n -> rho n = n) ->
  alpha_funs (shared c) (map (ren_fun rho (fun n => n)) (funs c)) (funs c).
Proof.
  intros [I1 I2] Hfix. split.
  - assert (G : forall F : list (MFun N), Forall2 (alpha (shared c)) (map (ren_fun rho (fun n => n)) F) F).
    { induction F as [|g F IH]; cbn [map]; constructor; [|exact IH]. exists rho', rho. split; [split; auto|]. split.
      - intros n Hn. rewrite <- (Hfix n Hn) at 1. apply I1.
      - unfold ren_fun, ren_vars. cbn [fun_name fun_ast fun_inputs]. destruct g as [m b i]. cbn [fun_name fun_ast fun_inputs]. f_equal.
        + rewrite (ren_comp rho' (fun n => n) rho (fun n => n) (fun n => n) (fun n => n)); auto. now rewrite ren_id.
        + rewrite map_map. rewrite <- (map_id i) at 1. apply map_ext. intros n. now rewrite I1. }
    apply G.
  - apply Forall_map. eapply Forall_impl; [|apply shared_within]. intros g Hg n Hn. cbn [ren_fun fun_ast fun_inputs] in *.
    apply mentions_ren in Hn as (k & Hk & ->). destruct (Hg k Hk) as [Hp|Hu]; [left; now apply in_map|right]. now rewrite Hfix.
Qed.

(** The unknowns of equations, and all other names that have no value, can be
    called differently. *)
Theorem c68_unknowns rho rho' (a : AST N) c :
  inverse rho rho' -> (forall v, In v (vars c) -> rho (var_name v) = var_name v) -> (forall n, shared c n -> rho n = n) ->
  same_up_to_name a c (ren_vars rho a) c.
Proof.
  intros Hinv Hv Hs. pose proof (inverse_inj _ _ Hinv) as Hinj. apply same_intro. intros f. unfold eval.
  rewrite <- (forget_ren rho), <- eval_ren by (auto using id_inj).
  apply (eval_alpha (shared c) f (fun _ => True)); [auto|intros n _; exact I|]. split.
  - intros n _. f_equal. cbn [ren_ctx vars]. rewrite <- (map_id (vars c)) at 2. apply map_ext_in. intros [n' vs] Hin. unfold ren_var. f_equal. exact (Hv _ Hin).
  - eapply renamed_funs; eauto.
Qed.

Lemma swap_left x y : swap x y x = y. Proof. unfold swap. now rewrite str_eqb_refl. Qed.
Lemma swap_other x y n : n <> x -> n <> y -> swap x y n = n.
Proof. intros H1 H2. unfold swap. apply str_eqb_neq in H1. apply str_eqb_neq in H2. now rewrite H1, H2. Qed.
Lemma swap_right x y : swap x y y = x.
Proof. unfold swap. destruct (str_eqb_spec y x) as [->|H]; [reflexivity|]. now rewrite str_eqb_refl. Qed.
Lemma swap_swap x y n : swap x y (swap x y n) = n.
Proof.
  destruct (str_eqb_spec n x) as [->|H1]; [now rewrite swap_left, swap_right|]. destruct (str_eqb_spec n y) as [->|H2]; [now rewrite swap_right, swap_left|].
  rewrite (swap_other x y n H1 H2). now apply swap_other.
Qed.
Lemma swap_inverse x y : inverse (swap x y) (swap x y).
Proof. split; apply swap_swap. Qed.

(** Contexts that agree once [x], [y] are out of the way. *)
Section Swap.
Variables x y : str.
Variable c : Ctx N.
Hypothesis Hd : distinct_names c.
Hypothesis Hsx : ~ shared c x.
Hypothesis Hsy : ~ shared c y.
Notation rho := (swap x y).
Notation c' := (ren_ctx rho (fun n => n) c).
Notation S := (fun n => n <> x).

Lemma distinct_ren : distinct_names c'.
Proof.
  unfold distinct_names in *. cbn [ren_ctx vars]. rewrite map_map. cbn [ren_var var_name]. rewrite <- (map_map var_name rho).
  apply FinFun.Injective_map_NoDup; [|exact Hd]. intros p q. apply (inverse_inj _ _ (swap_inverse x y)).
Qed.
Lemma swap_shared n : shared c n -> rho n = n.
Proof. intros H. apply swap_other; intros ->; auto. Qed.
Lemma shared_S n : shared c n -> S n.
Proof. intros H ->. auto. Qed.
Lemma swap_within (e : AST N) : ~ In y (mentions e) -> within S (ren_vars rho e).
Proof.
  intros Hy n Hn. apply mentions_ren in Hn as (k & Hk & ->). intros E. apply Hy. replace y with k; [exact Hk|].
  rewrite <- (swap_swap x y k), E. apply swap_left.
Qed.
Lemma swap_funs : alpha_funs (shared c) (funs c') (funs c).
Proof. apply (renamed_funs rho rho); [apply swap_inverse|apply swap_shared]. Qed.
Lemma swap_named n : n <> x -> n <> y -> named n (vars c') = named n (vars c).
Proof. intros H1 H2. cbn [ren_ctx vars]. apply named_ren; [apply (inverse_inj _ _ (swap_inverse x y))|now apply swap_other]. Qed.
Lemma swap_named_y : tl (named y (vars c')) = [] /\ tl (named y (vars c)) = [].
Proof. rewrite !named_distinct by (auto using distinct_ren). split; [destruct (lookup_var c' y)|destruct (lookup_var c y)]; reflexivity. Qed.

Lemma swap_agree_remove : agree S (alpha_funs (shared c)) (remove_var c' y) (remove_var c y).
Proof.
  split; [|apply swap_funs]. intros n Hn. rewrite !named_remove_var. destruct (str_eqb_spec n y) as [->|Hy]; [reflexivity|]. now apply swap_named.
Qed.
Lemma swap_agree_first : agree S (alpha_funs (shared c)) (mkCtx (remove_first y (vars c')) (funs c')) (mkCtx (remove_first y (vars c)) (funs c)).
Proof.
  split; [|apply swap_funs]. intros n Hn. cbn [vars]. rewrite !named_remove_first. destruct (str_eqb_spec n y) as [->|Hy]; [|now apply swap_named].
  destruct swap_named_y as [E1 E2]. now rewrite E1, E2.
Qed.
Variable ev : AST N -> Ctx N -> res EvalError (list V).
Variable f : nat.
Hypothesis Hev : forall b c, ev b c = forget (eval_rec f b c []).
Lemma ev_swap (b : AST N) c1 c2 : within S b -> agree S (alpha_funs (shared c)) c1 c2 -> ev b c1 = ev b c2.
Proof. intros Hb Hc. rewrite !Hev. now apply (eval_alpha (shared c) f S shared_S). Qed.

Lemma integral_loop_swap e n dx ub b sums : within S e ->
  integral_loop ev n e y c' (remove_first y (vars c')) dx ub b sums = integral_loop ev n e y c (remove_first y (vars c)) dx ub b sums.
Proof.
  intros He. revert b sums. induction n as [|n IH]; intros b sums; cbn [integral_loop]; [reflexivity|]. destruct (nltb b ub); [|reflexivity].
  rewrite (ev_swap e _ (mkCtx (remove_first y (vars c) ++ [mkVar y [Scalar (ndiv (nadd b (nsub b dx)) (nof_Z 2))]]) (funs c)) He).
  - destruct (ev _ _); cbn [bind]; try reflexivity. destruct (add_samples sums a); cbn [bind]; auto.
  - eapply agree_app; [apply swap_agree_first|reflexivity|reflexivity].
Qed.
Lemma integral_swap e i j n : within S e -> calculate_integral ev n e y i j c' = calculate_integral ev n e y i j c.
Proof.
  intros He. unfold calculate_integral. destruct i; try reflexivity. destruct j; try reflexivity. destruct (neqb _ _); [reflexivity|].
  destruct (nltb _ _); now rewrite integral_loop_swap.
Qed.
Lemma remove_remove (d : Ctx N) n : remove_var (remove_var d n) n = remove_var d n.
Proof.
  unfold remove_var. cbn [vars funs]. f_equal. induction (vars d) as [|v l IH]; cbn [filter]; [reflexivity|].
  destruct (negb (str_eqb (var_name v) n)) eqn:E; cbn [filter]; [rewrite E; congruence|exact IH].
Qed.
Lemma derivative_swap e a : within S e -> fst (calculate_derivative ev e y a c') = fst (calculate_derivative ev e y a c).
Proof.
  intros He.
  assert (R : forall d : Ctx N, fst (calculate_derivative ev e y a d) = fst (calculate_derivative ev e y a (remove_var d y))).
  { intros d. unfold calculate_derivative. now rewrite (remove_remove d y). }
  rewrite (R c'), (R c). apply (derivative_agree S (alpha_funs (shared c))); [|exact He|apply swap_agree_remove].
  intros b c1 c2. apply ev_swap.
Qed.
End Swap.

(** The variable of an integral can be called differently: [y] instead of [x],
    if [y] does not occur in the integrand and no function uses [x] or [y] as a
    name of its caller. *)
Theorem c68_integral_variable (e : AST N) x y l u c :
  distinct_names c -> ~ In y (mentions e) -> ~ shared c x -> ~ shared c y ->
  same_up_to_name (AInt e x l u) c (AInt (ren_vars (swap x y) e) y l u) c.
Proof.
  intros Hd Hy Hsx Hsy. apply same_intro. intros [|f]; [reflexivity|]. unfold eval. cbn [eval_rec].
  destruct (str_eqb_spec x y) as [<-|Hxy].
  { unfold ren_vars. rewrite ren_id; [reflexivity| |reflexivity]. intros n. unfold swap. destruct (str_eqb_spec n x) as [->|]; reflexivity. }
  apply forget_bind; [reflexivity|]. intros lvs _. apply forget_bind; [reflexivity|]. intros uvs _.
  apply forget_concatM. intros i _. apply forget_concatM. intros j _. set (ev := fun (b : AST N) (c : Ctx N) => eval_rec f b c []).
  pose proof (inverse_inj _ _ (swap_inverse x y)) as Hinj.
  rewrite <- (forget_ren (swap x y) (calculate_integral ev f e x i j c)).
  rewrite <- (integral_ren (swap x y) (fun n => n) (swap x y) (fun n => n) Hinj ev ev).
  2:{ intros b d. unfold ev. apply (eval_ren (swap x y) (fun n => n) Hinj id_inj eq_refl). }
  rewrite swap_left, !forget_integral. apply (integral_swap x y c Hd Hsx Hsy _ f); [reflexivity|]. now apply swap_within.
Qed.
(** The same for the variable of a derivative. *)
Theorem c68_derivative_variable (e : AST N) x y at_ c :
  ~ In y (mentions e) -> ~ shared c x -> ~ shared c y ->
  same_up_to_name (ADer e x at_) c (ADer (ren_vars (swap x y) e) y at_) c.
Proof.
  intros Hy Hsx Hsy. apply same_intro. intros [|f]; [reflexivity|]. unfold eval. cbn [eval_rec].
  destruct (str_eqb_spec x y) as [<-|Hxy].
  { unfold ren_vars. rewrite ren_id; [reflexivity| |reflexivity]. intros n. unfold swap. destruct (str_eqb_spec n x) as [->|]; reflexivity. }
  apply forget_bind; [reflexivity|]. intros avs _.
  apply forget_concatM. intros i _. set (ev := fun (b : AST N) (c : Ctx N) => eval_rec f b c []).
  pose proof (inverse_inj _ _ (swap_inverse x y)) as Hinj.
  rewrite <- (forget_ren (swap x y) (fst (calculate_derivative ev e x i c))).
  rewrite <- (derivative_ren (swap x y) (fun n => n) (swap x y) (fun n => n) Hinj ev ev).
  2:{ intros b d. unfold ev. apply (eval_ren (swap x y) (fun n => n) Hinj id_inj eq_refl). }
  rewrite swap_left, !forget_derivative. apply (derivative_swap x y c Hsx Hsy _ f); [reflexivity|]. now apply swap_within.
Qed.
End Props.

(** ** Concrete cases *)
Module Examples.
#[local] Existing Instance NT.
#[local] Existing Instance ET.
Open Scope string_scope.
Open Scope list_scope.
Notation X := (AVar (lit "x")).
Notation Y := (AVar (lit "y")).
Notation num z := (AScalar (Toy.num z)).
(** f(x) = x*a, and variables x, a *)
Definition fx : MFun NT := mkFun (lit "f") (AOp OMult X (AVar (lit "a"))) [lit "x"].
Definition fy : MFun NT := mkFun (lit "f") (AOp OMult Y (AVar (lit "a"))) [lit "y"].
Definition c0 : Ctx NT := mkCtx [mkVar (lit "x") [sc 7; sc 8]; mkVar (lit "a") [sc 3]] [fx].
Lemma shared_c0 n : shared c0 n <-> n = lit "a".
Proof.
  split.
  - intros (fn & [<-|[]] & H1 & H2). cbn in H1, H2. destruct H1 as [<-|[<-|[]]]; [exfalso; apply H2; now left|reflexivity].
  - intros ->. exists fx. split; [now left|]. cbn. split; [now right; left|]. intros [H|[]]. discriminate H.
Qed.
(** The derivative of f(x) + x by x is that of f(t) + t by t, although x is a
    variable and the parameter of f. *)
Example bound_case :
  distinct_names c0 /\ ~ In (lit "t") (mentions (AOp OAdd (AFun (lit "f") [X]) X)) /\ ~ shared c0 (lit "x") /\ ~ shared c0 (lit "t") /\
  ren_vars (swap (lit "x") (lit "t")) (AOp OAdd (AFun (lit "f") [X]) X) = AOp OAdd (AFun (lit "f") [AVar (lit "t")]) (AVar (lit "t")).
Proof.
  split; [repeat constructor; cbn; intuition discriminate|]. split; [cbn; intuition discriminate|].
  split; [rewrite shared_c0; discriminate|]. split; [rewrite shared_c0; discriminate|reflexivity].
Qed.
Example parameter_case : Forall2 (alpha (shared c0)) (funs c0) [fy].
Proof.
  constructor; [|constructor]. exists (swap (lit "x") (lit "y")), (swap (lit "x") (lit "y")). split; [apply swap_inverse|]. split; [|reflexivity].
  intros n Hn. apply shared_c0 in Hn. subst n. reflexivity.
Qed.
(** The unknown of x*x = a called y: possible if x has no value. *)
Example unknown_case :
  let c := mkCtx [mkVar (lit "a") [sc 3]] [fx] in
  (forall v, In v (vars c) -> swap (lit "x") (lit "y") (var_name v) = var_name v) /\ (forall n, shared c n -> swap (lit "x") (lit "y") n = n) /\
  ren_vars (swap (lit "x") (lit "y")) (AEq [(AOp OMult X X, AVar (lit "a"))] [lit "x"]) = AEq [(AOp OMult Y Y, AVar (lit "a"))] [lit "y"].
Proof.
  cbn zeta. split; [intros v [<-|[]]; reflexivity|]. split; [|reflexivity]. intros n Hn.
  assert (E : n = lit "a") by (apply shared_c0; exact Hn). subst n. reflexivity.
Qed.
(** New names for everything. *)
Definition prime (n : str) : str := match n with [] => [] | _ => n ++ lit "0" end.
Example rename_case : injective prime /\ prime [] = [] /\
  ren prime prime (AFun (lit "f") [X]) = AFun (lit "f0") [AVar (lit "x0")] /\
  vars (ren_ctx prime prime c0) = [mkVar (lit "x0") [sc 7; sc 8]; mkVar (lit "a0") [sc 3]] /\
  funs (ren_ctx prime prime c0) = [mkFun (lit "f0") (AOp OMult (AVar (lit "x0")) (AVar (lit "a0"))) [lit "x0"]].
Proof.
  split; [|repeat split]. intros [|x a] [|y b] E; cbn [prime] in E; try reflexivity; try discriminate E.
  apply (app_inj_tail (x :: a) (y :: b)) in E. apply E.
Qed.

(** A function sees the variables of its caller, and so the parameter x of g
    cannot be renamed: h uses it. *)
Definition g (p : str) : MFun NT := mkFun (lit "g") (AFun (lit "h") [num 1]) [p].
Definition h : MFun NT := mkFun (lit "h") (AOp OAdd X Y) [lit "y"].
Example caller_seen :
  eval 9 (AFun (lit "g") [num 5]) (mkCtx [] [g (lit "x"); h]) = Ok [sc 6] /\
  eval 9 (AFun (lit "g") [num 5]) (mkCtx [] [g (lit "t"); h]) = Err (NoVariable (lit "x")).
Proof. split; [apply res_same_ok; vm_compute; reflexivity|reflexivity]. Qed.
End Examples.
