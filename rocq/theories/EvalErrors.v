(** * EvalErrors: which errors evaluation ends with, and what they say. *)
From Coq Require Import List NArith ZArith Bool Lia Arith String.
From Verif Require Import Base BaseFacts F64 Num Types Maths Helpers Parser Eval EvalFuel SpecEval EvalProofs EvalTotal ParserSpec ErrorSpec.
Import ListNotations.

(** [r] does not end with an unlisted message. *)
Definition known (s : string) : bool := existsb (String.eqb s) math_messages.
Lemma known_in s : known s = true <-> In s math_messages.
Proof.
  unfold known. split.
  - intros H. apply existsb_exists in H as (x & Hx & E). apply String.eqb_eq in E. now subst.
  - intros H. apply existsb_exists. exists s. split; [exact H|]. apply String.eqb_refl.
Qed.
Notation listed := (sat (fun _ => True) (fun s : string => known s = true) True True).
Ltac msg := solve [cbn [sat]; vm_compute; reflexivity].
Ltac nl1 :=
  match goal with
  | |- sat _ _ _ _ (bind _ _) => eapply (sat_bind (fun _ => True)); [|intros ? _]
  | |- sat _ _ _ _ (mapM _ _) => eapply sat_true; apply (sat_mapM (fun _ => True)); intros
  | |- sat _ _ _ _ (foldM _ _ _) => apply (sat_foldM (fun _ => True)); [exact I|intros]
  | |- sat _ _ _ _ (if ?b then _ else _) => destruct b
  | |- sat _ _ _ _ (let '(_, _) := ?x in _) => destruct x
  | |- sat _ _ _ _ (match ?x with _ => _ end) => destruct x
  | |- sat _ _ _ _ (idx _ _) => unfold idx
  | |- sat _ _ _ _ (unwrap ?o) => destruct o; [exact I|exact I]
  | |- sat _ _ _ _ (Ok _) => exact I
  | |- sat _ _ _ _ (Err _) => msg
  | |- sat _ _ _ _ Panic => exact I
  | |- sat _ _ _ _ Fuel => exact I
  end.
Ltac nl := repeat (intros; nl1).

Section Maths.
Context {N : Num}.
Notation V := (Value N).

Lemma det_listed f (a : list (list T)) : listed (det_fuel f a).
Proof. revert a; induction f as [|f IH]; intros a; [exact I|]. cbn [det_fuel]. destruct a as [|r a]; [exact I|]. unfold row0_len, idx2. nl. apply IH. Qed.
Lemma eliminate_sat {E} (Q : E -> Prop) (z : E) (v : list (list T)) : Q z -> sat (fun _ => True) Q True True (eliminate z v).
Proof. intros Hz. unfold eliminate, elim_row. repeat (intros; match goal with |- sat _ _ _ _ (Err _) => exact Hz | _ => nl1 end). Qed.
Lemma inv_m_listed (a : list (list T)) : listed (inv_m a).
Proof.
  unfold inv_m. destruct (det_m a); try exact I; [|msg].
  destruct (match a0 with Scalar s => neqb s n0 | _ => false end); [msg|].
  eapply (sat_bind (fun _ => True)); [apply eliminate_sat; msg|intros ? _].
  eapply (sat_bind (fun _ => True)); [apply eliminate_sat; msg|intros ? _]. nl.
Qed.
Lemma mmmult_listed (a b : list (list T)) : listed (mmmult a b).
Proof. unfold mmmult, row0_len, idx2. nl. Qed.
Lemma add_listed (x y : V) : listed (add x y).
Proof. destruct x, y; cbn [add]; try exact I; try msg; unfold sadd, vadd, madd, row0_len, idx2; nl. Qed.
Lemma sub_listed (x y : V) : listed (sub x y).
Proof.
  destruct x, y; cbn [sub]; try exact I; try msg.
  - unfold msub. eapply (sat_bind (fun _ => True)); [unfold row0_len, idx2; nl|]. intros bn _. apply (add_listed (Matrix m) (Matrix bn)).
  - apply (add_listed (Vector v) (Vector _)).
Qed.
Lemma mult_listed (x y : V) : listed (mult x y).
Proof. destruct x, y; cbn [mult]; try exact I; try msg; try apply mmmult_listed; unfold smmult, svmult, vvmult, mvmult, row0_len, idx2; nl. Qed.
Lemma op_listed {En : Env} op (x y : V) : listed (op_meaning op x y).
Proof.
  assert (Hs : forall r : res string V, listed r -> listed (single r)).
  { intros r Hr. unfold single, rmap. eapply (sat_bind (fun _ => True)); [exact Hr|]. intros; exact I. }
  destruct op; cbn [op_meaning]; try apply Hs; try apply add_listed; try apply sub_listed; try apply mult_listed; try exact I.
  all: try (unfold sin, cos, tan, arcsin, arccos, arctan, sqrt, ln, scalar_fn; destruct x; first [exact I | msg]).
  - eapply (sat_bind (fun _ => True)); [apply add_listed|intros ? _].
    eapply (sat_bind (fun _ => True)); [apply sub_listed|intros; exact I].
  - destruct y; exact I.
  - destruct x, y; cbn [div]; try exact I; try msg; unfold msdiv, smmult, vsdiv, svmult, vvdiv, row0_len, idx2; nl.
  - destruct x, y; cbn [cross]; try exact I; try msg; unfold vcross; nl.
  - destruct x, y; cbn [pow]; try exact I; try msg. unfold mspow. nl.
    + unfold row0_len; nl.
    + apply iterM_sat; [exact I|]. intros mm _. eapply (sat_bind (fun _ => True)); [apply mmmult_listed|].
      intros p _; destruct (get_matrix p); exact I.
  - destruct x, y; cbn [get]; try exact I; nl.
  - destruct x; cbn [abs]; nl.
  - destruct x, y; cbn [root]; try exact I; msg.
  - destruct x; cbn [det]; try exact I; try msg. apply det_listed.
  - destruct x; cbn [inv]; try exact I; try msg. apply inv_m_listed.
Qed.
End Maths.

Section Traverse.
Context {N : Num} {En : Env}.
Notation V := (Value N).
Variable Q : EvalError -> Prop.
Hypothesis HQm : forall s, known s = true -> Q (MathError s).
Notation ok := (sat (fun _ => True) Q True True).

Lemma mathe_says {A} (r : res string A) : listed r -> ok (mathe r).
Proof. destruct r; cbn; auto. Qed.
Lemma apply_op_says op (x y : V) : ok (apply_op op x y).
Proof. rewrite apply_op_meaning. apply mathe_says, op_listed. Qed.

Ltac emsg := solve [apply HQm; msg].
Ltac ok1 :=
  match goal with
  | |- sat _ _ _ _ (bind _ _) => eapply (sat_bind (fun _ => True)); [|intros ? _]
  | |- sat _ _ _ _ (mapM _ _) => eapply sat_true; apply (sat_mapM (fun _ => True)); intros
  | |- sat _ _ _ _ (if ?b then _ else _) => destruct b
  | |- sat _ _ _ _ (match ?x with _ => _ end) => destruct x
  | |- sat _ _ _ _ (idx _ _) => unfold idx
  | |- sat _ _ _ _ (unwrap ?o) => destruct o; [exact I|exact I]
  | |- sat _ _ _ _ (Ok _) => exact I
  | |- sat _ _ _ _ Panic => exact I
  | |- sat _ _ _ _ (Err _) => emsg
  end.
Ltac oks := repeat (intros; ok1).

Section Higher.
Variable ev : AST N -> Ctx N -> res EvalError (list V).
Variable FS : list (MFun N).
(** Names that every context on the way defines. *)
Variable D : list str.
Variable good : AST N -> Prop.
Definition keeps (c : Ctx N) : Prop := funs c = FS /\ forall n, In n D -> In n (map var_name (vars c)).
Hypothesis Hev : forall b c, good b -> keeps c -> ok (ev b c).
Hypothesis good_quot : forall x y, good (quotient_ast x y).

Lemma keeps_add c v : keeps c -> keeps (add_var c v).
Proof.
  intros [HF H]. split; [exact HF|]. intros n Hn. specialize (H n Hn). cbn. rewrite map_app, in_app_iff.
  apply in_map_iff in H as (w & <- & Hw). destruct (str_eqb (var_name w) (var_name v)) eqn:E.
  - right. apply str_eqb_eq in E. left. now symmetry.
  - left. apply in_map_iff. exists w. split; [reflexivity|]. apply filter_In. now rewrite E.
Qed.
Lemma keeps_remove c n : ~ In n D -> keeps c -> keeps (remove_var c n).
Proof.
  intros Hd [HF H]. split; [exact HF|]. intros k Hk. specialize (H k Hk). cbn.
  apply in_map_iff in H as (w & <- & Hw). apply in_map_iff. exists w. split; [reflexivity|]. apply filter_In. split; [exact Hw|].
  destruct (str_eqb (var_name w) n) eqn:E; [|reflexivity]. apply str_eqb_eq in E. subst n. contradiction.
Qed.
Lemma keeps_rebind c n v : var_name v = n -> keeps c -> keeps (add_var (remove_var c n) v).
Proof.
  intros Hv [HF H]. split; [exact HF|]. intros k Hk. specialize (H k Hk). cbn. rewrite map_app, in_app_iff.
  apply in_map_iff in H as (w & <- & Hw). destruct (str_eqb (var_name w) n) eqn:E.
  - right. apply str_eqb_eq in E. left. congruence.
  - left. apply in_map_iff. exists w. split; [reflexivity|]. apply filter_In. rewrite Hv, E. split; [|reflexivity]. apply filter_In. now rewrite E.
Qed.
Lemma keeps_app c l : keeps c -> keeps (mkCtx (vars c ++ l) (funs c)).
Proof. intros [HF H]. split; [exact HF|]. intros k Hk. cbn. rewrite map_app, in_app_iff. left. now apply H. Qed.
Lemma in_remove_first n (l : list (MVar N)) w : In w l -> In w (remove_first n l) \/ var_name w = n.
Proof.
  induction l as [|v l IH]; cbn; [easy|]. intros [->|H]; destruct (str_eqb _ n) eqn:E; cbn; auto.
  - right. now apply str_eqb_eq.
  - destruct (IH H); auto.
Qed.
Lemma keeps_sample c x v : var_name v = x -> keeps c -> keeps (mkCtx (remove_first x (vars c) ++ [v]) (funs c)).
Proof.
  intros Hv [HF H]. split; [exact HF|]. intros k Hk. specialize (H k Hk). cbn. rewrite map_app, in_app_iff.
  apply in_map_iff in H as (w & <- & Hw). destruct (in_remove_first x _ _ Hw) as [H|H].
  - left. now apply in_map.
  - right. left. congruence.
Qed.

Lemma add_samples_says (sums es : list V) : ok (add_samples sums es).
Proof.
  revert sums; induction es as [|e es IH]; intros [|s sums]; cbn [add_samples]; try exact I.
  - eapply (sat_bind (fun _ => True)); [apply IH|intros; exact I].
  - eapply (sat_bind (fun _ => True)); [apply mathe_says, add_listed|intros ? _].
    eapply (sat_bind (fun _ => True)); [apply IH|intros; exact I].
Qed.
Lemma integral_loop_says f e x c dx ub b sums :
  good e -> keeps c -> ok (integral_loop ev f e x c (remove_first x (vars c)) dx ub b sums).
Proof.
  intros He Hc. revert b sums; induction f as [|f IH]; intros b sums; cbn [integral_loop]; [exact I|].
  destruct (nltb b ub); [|exact I].
  eapply (sat_bind (fun _ => True)); [apply Hev; [exact He|now apply keeps_sample]|intros ? _].
  eapply (sat_bind (fun _ => True)); [apply add_samples_says|intros ? _]. apply IH.
Qed.
Lemma integral_says f e x l u c : good e -> keeps c -> ok (calculate_integral ev f e x l u c).
Proof.
  intros He Hc. unfold calculate_integral. oks.
  all: try (apply integral_loop_says; auto). all: apply mathe_says, mult_listed.
Qed.
Lemma derivative_says e x a c : good e -> keeps c -> ok (fst (calculate_derivative ev e x a c)).
Proof.
  intros He Hc. unfold calculate_derivative.
  destruct a; try (cbn [fst]; emsg).
  assert (K1 : keeps (add_var (remove_var c x) (mkVar x [Scalar s]))) by now apply keeps_rebind.
  assert (K2 : forall v, keeps (add_var (remove_var (add_var (remove_var c x) (mkVar x [Scalar s])) x) (mkVar x v))) by (intros; now apply keeps_rebind).
  match goal with |- context [ev e ?c1] => pose proof (Hev e c1 He K1) as H1; destruct (ev e c1) end; try exact H1.
  match goal with |- context [ev e ?c1] => pose proof (Hev e c1 He (K2 _)) as H2; destruct (ev e c1) end; try exact H2.
  destruct (negb _); [cbn [fst]; emsg|].
  match goal with |- context [mapM ?f ?l] => assert (H3 : ok (mapM f l)) end.
  { oks. apply Hev; auto. }
  match goal with |- context [mapM ?f ?l] => destruct (mapM f l) end; exact H3.
Qed.
Lemma derivative_newton_says e x a fx c : good e -> keeps c -> ok (calculate_derivative_newton ev e x a fx c).
Proof. intros He Hc. unfold calculate_derivative_newton.
 oks.
 all: apply Hev; try exact He; try apply good_quot.
 all: apply keeps_rebind; [reflexivity|exact Hc]. Qed.

Notation ok' := (sat (fun _ => True) (fun e => Q e \/ internal e) True True).
Lemma says_or {A} (r : res EvalError A) : ok r -> ok' r.
Proof. apply sat_impl; auto. Qed.

Section Solver.
Hypothesis HQs : forall e, In e [VectorInEq; MatrixInEq; NothingToDoEq; UnderdeterminedSystem] -> Q e.

Lemma gauss_says v : ok' (gauss_algorithm v).
Proof.
  unfold gauss_algorithm, row0_len.
  eapply (sat_bind (fun _ => True)); [apply says_or; oks|intros ? _].
  destruct (negb _); [cbn; left; apply HQs; cbn; tauto|].
  eapply (sat_bind (fun _ => True)); [apply eliminate_sat; right; unfold internal; auto|intros ? _].
  eapply (sat_bind (fun _ => True)); [apply eliminate_sat; right; unfold internal; auto|intros ? _].
  apply says_or. oks.
Qed.
Lemma jacobi_says s x c fx : Forall good s -> keeps c -> ok' (jacobi_and_gauss ev s x c fx).
Proof.
  intros Hs Hc. unfold jacobi_and_gauss.
  eapply (sat_bind (fun _ => True)).
  { apply says_or. eapply sat_true. apply (sat_mapM (fun _ => True)). intros i _.
    unfold idx at 1. destruct (nth_error s i) as [e|] eqn:Ei; [|exact I]. cbn [unwrap bind].
    assert (He : good e) by (eapply Forall_forall; [exact Hs|eapply nth_error_In, Ei]).
    oks. apply derivative_newton_says; [exact He|]. now apply keeps_app. }
  intros jac _. eapply (sat_bind (fun _ => True)).
  { apply says_or. oks. }
  intros aug _. eapply (sat_bind (fun _ => True)); [apply gauss_says|]. intros d _.
  apply says_or. unfold first_scalar. oks.
Qed.
Lemma eval_scalar_says c e : good e -> keeps c -> ok (eval_scalar ev c e).
Proof. intros He Hc. unfold eval_scalar. oks. apply Hev; auto. Qed.

Definition fresh (x : list (MVar N)) : Prop := forall v, In v x -> ~ In (var_name v) D.
Lemma keeps_add_all x : forall c, keeps c -> keeps (add_all c x).
Proof. induction x as [|v x IH]; intros c Hc; [exact Hc|]. apply IH. now apply keeps_add. Qed.
Lemma keeps_remove_all x : fresh x -> forall c, keeps c -> keeps (remove_all c x).
Proof. induction x as [|v x IH]; intros Hx c Hc; [exact Hc|]. apply IH; [intros w Hw; apply Hx; now right|]. apply keeps_remove; [apply Hx; now left|exact Hc]. Qed.

Lemma jacobi_fresh s x c fx y : jacobi_and_gauss ev s x c fx = Ok y -> fresh x -> fresh y.
Proof.
  unfold jacobi_and_gauss. intros H Hx.
  apply bind_ok in H as (jac & _ & H). apply bind_ok in H as (aug & _ & H). apply bind_ok in H as (dl & _ & H).
  intros v Hv. destruct (mapM_In _ _ _ _ H Hv) as (i & _ & Hi).
  apply bind_ok in Hi as (xi & Hxi & Hi). apply bind_ok in Hi as (d & _ & Hi). apply bind_ok in Hi as (s0 & _ & Hi).
  injection Hi as <-. cbn. apply Hx. apply idx_ok in Hxi. eapply nth_error_In; eauto.
Qed.
Definition kept (r : res EvalError (NewtonReturn) * Ctx N) : Prop :=
  ok' (fst r) /\ keeps (snd r) /\ forall y, fst r = Ok (NextX y) -> fresh y.
Lemma newton_says s k x c : Forall good s -> Forall good k -> fresh x -> keeps c -> kept (newton ev s k x c).
Proof.
  intros Hs Hk Hx Hc. unfold newton.
  assert (H1 : forall c', keeps c' -> forall l, Forall good l -> ok (mapM (eval_scalar ev c') l)).
  { intros c' Hc' l Hl. eapply sat_true. apply (sat_mapM (fun _ => True)). intros e He.
    apply eval_scalar_says; auto. eapply Forall_forall; eauto. }
  assert (E1 := keeps_add_all x c Hc). assert (E2 := keeps_remove_all x Hx _ E1).
  assert (E3 := keeps_add_all x _ E2). assert (E4 := keeps_remove_all x Hx _ E3).
  pose proof (H1 _ E1 s Hs) as Hm. destruct (mapM (eval_scalar ev (add_all c x)) s) as [fx|e| |];
    try (split; [cbn [fst sat] in *; solve [auto]|split; [assumption|discriminate]]).
  destruct (small fx).
  - pose proof (H1 _ E3 k Hk) as Hm'.
    destruct (mapM (eval_scalar ev (add_all (remove_all (add_all c x) x) x)) k) as [cr|e| |];
      try (split; [cbn [fst sat] in *; solve [auto]|split; [assumption|discriminate]]).
    destruct cr; [split; [exact I|split; [assumption|discriminate]]|].
    destruct (small _); [split; [exact I|split; [assumption|discriminate]]|].
    split; [|split; [assumption|discriminate]]. cbn. right; unfold internal; auto.
  - pose proof (jacobi_says s x _ fx Hs E2) as Hj. pose proof (jacobi_fresh s x (remove_all (add_all c x) x) fx) as Hn.
    destruct (jacobi_and_gauss ev s x (remove_all (add_all c x) x) fx) as [nx|e| |];
      try (split; [cbn [fst sat] in *; solve [auto]|split; [assumption|discriminate]]).
    match goal with |- context [mapM ?f nx] => assert (H3 : ok (mapM f nx)) by oks; destruct (mapM f nx) end;
      try (split; [cbn [fst sat] in *; solve [auto]|split; [assumption|discriminate]]).
    destruct (existsb _ _).
    + split; [|split; [assumption|discriminate]]. cbn; right; unfold internal; auto.
    + split; [exact I|split; [assumption|]]. intros y [= <-]. now apply Hn.
Qed.
Lemma newton_loop_says n s k x c :
  Forall good s -> Forall good k -> fresh x -> keeps c ->
  sat (fun r => keeps (snd r)) Q True True (newton_loop ev n s k x c).
Proof.
  intros Hs Hk; revert x c; induction n as [|n IH]; intros x c Hx Hc; cbn [newton_loop]; [exact Hc|].
  destruct (newton_says s k x c Hs Hk Hx Hc) as (Hn & Hk' & Hf).
  destruct (newton ev s k x c) as [r c']; cbn in Hn, Hk', Hf.
  destruct r as [[y|y]|e| |]; try exact Hn.
  - apply IH; auto.
  - eapply (sat_bind (fun _ => True)).
    { unfold first_scalar. oks. }
    intros rs _. destruct rs as [|r0 [|r1 rs]]; exact Hk'.
  - destruct Hn as [Hn|Hn]; [destruct e; cbn; auto|]. destruct Hn as [->|[->| ->]]; exact Hk'.
Qed.
Lemma start_loop_says js s k sv c r :
  Forall good s -> Forall good k -> (forall n, In n sv -> ~ In n D) -> keeps c -> ok (start_loop ev js s k sv c r).
Proof.
  intros Hs Hk Hv; revert c r; induction js as [|j js IH]; intros c r Hc; cbn [start_loop]; [exact I|].
  eapply sat_bind; [apply newton_loop_says; auto|].
  - intros v Hin. apply in_map_iff in Hin as (n & <- & Hn). now apply Hv.
  - intros [[v stop] c'] Hc'; cbn in Hc'. destruct stop; [exact I|]. apply IH; auto.
Qed.
Lemma split_exprs_says es comb :
  Forall good es -> sat (fun sc => Forall good (fst sc) /\ Forall good (snd sc)) Q True True (split_exprs es comb).
Proof.
  intros Hes. unfold split_exprs.
  eapply sat_bind.
  - apply (sat_foldM (fun s => Forall good (fst (fst s)) /\ Forall good (snd (fst s)))); [cbn; auto|].
    intros [[se ch] rm] j [H1 H2] _; cbn in H1, H2.
    destruct (Nat.ltb j rm); [exact I|].
    unfold take_at, idx. destruct (nth_error ch (j - rm)) as [x|] eqn:E; [|exact I]. cbn [unwrap bind fst snd sat].
    split; [apply Forall_app; split; [exact H1|constructor; [|constructor]]|].
    + eapply Forall_forall; [exact H2|]. eapply nth_error_In, E.
    + apply Forall_forall; intros y Hy. eapply Forall_forall; [exact H2|].
      now apply (In_others (j - rm)).
  - intros s Hs; exact Hs.
Qed.
Lemma sort_key_says key l : ok (sort_key key l).
Proof. unfold sort_key. oks. Qed.
Lemma clean_results_says l : ok (clean_results l).
Proof.
  unfold clean_results. destruct l as [|r0 l]; [exact I|].
  destruct r0; try exact I; destruct (Nat.ltb _ _); try exact I;
    (eapply (sat_bind (fun _ => True)); [apply sort_key_says|intros ? _]);
    (eapply (sat_bind (fun _ => True)); [unfold slice; oks|intros ? _]); apply sort_key_says.
Qed.
Lemma comb_loop_says cs es c sv :
  Forall good es -> (forall n, In n sv -> ~ In n D) -> keeps c -> ok (comb_loop ev cs es c sv).
Proof.
  intros Hes Hv Hc; induction cs as [|i cs IH]; cbn [comb_loop]; [exact I|].
  eapply sat_bind; [now apply split_exprs_says|]. intros sc [H1 H2].
  eapply (sat_bind (fun _ => True)); [now apply start_loop_says|intros ? _].
  eapply (sat_bind (fun _ => True)); [apply clean_results_says|intros cl _].
  destruct cl; [exact IH|exact I].
Qed.
Lemma keeps_probe (sv : list str) : forall c, keeps c -> keeps (fold_left (fun c n => add_var c (mkVar n [Scalar nprobe])) sv c).
Proof. induction sv as [|v x IH]; intros c Hc; [exact Hc|]. apply IH. now apply keeps_add. Qed.
Lemma keeps_unprobe (sv : list str) : (forall n, In n sv -> ~ In n D) -> forall c, keeps c -> keeps (fold_left remove_var sv c).
Proof. induction sv as [|v x IH]; intros Hv c Hc; [exact Hc|]. apply IH; [intros n Hn; apply Hv; now right|]. apply keeps_remove; [apply Hv; now left|exact Hc]. Qed.

Lemma solve_says eqs c sv : (sv <> [] -> Q SearchVarsInVars) -> (forall e, In e eqs -> good (AOp OSub (fst e) (snd e))) -> keeps c -> 
  ok (do rf <- rf_new ev (map (fun i => AOp OSub (fst i) (snd i)) eqs) c sv; find_roots ev rf).
Proof.
  intros HQv Hes Hc.
  assert (Hg : Forall good (map (fun i => AOp OSub (fst i) (snd i)) eqs)) by (apply Forall_map, Forall_forall; exact Hes).
  eapply (sat_bind (fun rf => Forall good (rf_expressions rf) /\ (forall n, In n (rf_search_vars rf) -> ~ In n D) /\ keeps (rf_context rf))).
  - revert Hg. generalize (map (fun i => AOp OSub (fst i) (snd i)) eqs) as es. intros es Hg. unfold rf_new. destruct es as [|e0 es]; [apply HQs; cbn; tauto|].
    destruct (negb _); [apply HQs; cbn; tauto|].
    destruct (existsb _ sv) eqn:Ex; [apply HQv; intros ->; discriminate|].
    destruct (Nat.ltb _ _); [apply HQs; cbn; tauto|].
    assert (Hv : forall n, In n sv -> ~ In n D).
    { intros n Hn Hd. destruct Hc as [_ Hc]. specialize (Hc n Hd). apply in_map_iff in Hc as (w & Hw & Hin).
      enough (existsb (fun n => existsb (fun v => str_eqb (var_name v) n) (vars c)) sv = true) by congruence.
      apply existsb_exists. exists n. split; [exact Hn|]. apply existsb_exists. exists w. split; [exact Hin|]. now apply str_eqb_eq. }
    eapply (sat_bind (fun _ => True)); [apply Hev; [now inversion Hg|now apply keeps_probe]|].
    intros vs _. unfold idx. destruct (nth_error vs 0) as [v|]; [|exact I]. cbn [unwrap bind].
    destruct v; try (apply HQs; cbn; tauto).
    cbn [sat rf_expressions rf_search_vars rf_context]. split; [exact Hg|]. split; [exact Hv|]. apply keeps_unprobe; [exact Hv|]. now apply keeps_probe.
  - intros rf (H1 & H2 & H3). unfold find_roots. now apply comb_loop_says.
Qed.
End Solver.
End Higher.
End Traverse.

Section Main.
Context {N : Num} {En : Env}.
Notation V := (Value N).
Variables (b0 : AST N) (c0 : Ctx N).
Let Q := truthful b0 c0.
Notation ok := (sat (fun _ : list V => True) Q True True).
Let HQm : forall s, known s = true -> Q (MathError s) := fun s => proj1 (known_in s).
Let D := map var_name (vars c0).
Notation keepc := (keeps (funs c0) D).

Definition covered (b : AST N) : Prop := forall a, node a b -> mentioned a b0 c0.
Definition home (last : str) (b : AST N) : Prop :=
  last = [] \/ exists fn, In fn (funs c0) /\ fun_name fn = last /\ forall a, node a b -> node a (fun_ast fn).
Lemma node_trans (x : AST N) y z : node x y -> node y z -> node x z.
Proof. intros H1 H2. induction H2 as [|d a Hd H IH]; [exact H1|]. eapply Node_below; eauto. Qed.
Lemma covered_child b d : In d (children b) -> covered b -> covered d.
Proof. intros Hd H a Ha. apply H. eapply Node_below; eauto. Qed.
Lemma home_child last b d : In d (children b) -> home last b -> home last d.
Proof. intros Hd [H|(fn & H1 & H2 & H3)]; [now left|right]. exists fn. split; [exact H1|]. split; [exact H2|]. intros a Ha. apply H3. eapply Node_below; eauto. Qed.

Lemma from_value_says n (v : V) c last : ok (eval_rec n (ast_from_value v) c last).
Proof.
  destruct n as [|[|n]]; [exact I|destruct v|]; [| |exact I|].
  - cbn [ast_from_value eval_rec]. eapply (sat_bind (fun _ => True)); [|intros; exact I].
    eapply sat_true; apply (sat_mapM (fun _ => True)); intros i Hi. eapply sat_true; apply (sat_mapM (fun _ => True)); intros; exact I.
  - cbn [ast_from_value eval_rec]. eapply (sat_bind (fun _ => True)); [|intros; exact I].
    eapply sat_true; apply (sat_mapM (fun _ => True)); intros; exact I.
  - destruct v; cbn [ast_from_value eval_rec]; [| |exact I].
    + eapply (sat_bind (fun _ => True)); [|intros; exact I].
      eapply sat_true; apply (sat_mapM (fun _ => True)); intros i Hi. apply in_map_iff in Hi as (r & <- & _).
      eapply sat_true; apply (sat_mapM (fun _ => True)); intros j Hj. apply in_map_iff in Hj as (x & <- & _). exact I.
    + eapply (sat_bind (fun _ => True)); [|intros; exact I].
      eapply sat_true; apply (sat_mapM (fun _ => True)); intros i Hi. apply in_map_iff in Hi as (x & <- & _). exact I.
Qed.
Lemma concatM_says {A B} (f : A -> res EvalError (list B)) l :
  (forall x, In x l -> sat (fun _ => True) Q True True (f x)) -> sat (fun _ => True) Q True True (concatM f l).
Proof.
  intros H; unfold concatM. eapply (sat_bind (fun _ => True)); [|intros; exact I].
  eapply sat_true. apply (sat_mapM (fun _ => True)). exact H.
Qed.
Lemma ops_say op (lv rv : list V) : ok (concatM (fun i => concatM (fun j => apply_op op i j) rv) lv).
Proof. apply concatM_says; intros; apply concatM_says; intros. now apply apply_op_says. Qed.
Lemma quotient_says n (a b : V) c last : ok (eval_rec n (quotient_ast a b) c last).
Proof.
  destruct n as [|[|n]]; [exact I|exact I|]. unfold quotient_ast. cbn [eval_rec].
  eapply (sat_bind (fun _ => True)); [|intros ? _].
  - eapply (sat_bind (fun _ => True)); [apply from_value_says|intros ? _].
    eapply (sat_bind (fun _ => True)); [apply from_value_says|intros ? _]. apply ops_say.
  - cbn [bind]. apply ops_say.
Qed.
Lemma scalars_or_says e (vs : list V) : Q e -> sat (fun _ => True) Q True True (scalars_or e vs).
Proof.
  intros He; unfold scalars_or. eapply sat_true. apply (sat_mapM (fun _ => True)); intros v _.
  destruct (get_scalar v); [exact I|exact He].
Qed.
Lemma lookup_none c n : lookup_var c n = None -> ~ In n (map var_name (vars c)).
Proof.
  unfold lookup_var. intros H Hn. apply in_map_iff in Hn as (w & <- & Hw). apply (find_none _ _ H) in Hw. now rewrite str_eqb_refl in Hw.
Qed.
Lemma keeps_call params p c : keepc c -> keepc (mkCtx (call_vars params p (vars c)) (funs c)).
Proof.
  intros [HF H]. split; [exact HF|]. intros n Hn. specialize (H n Hn). cbn.
  unfold call_vars. clear Hn. generalize (map (fun nv : str * V => mkVar (fst nv) [snd nv]) (combine params p)) as acc. revert H.
  assert (Mono : forall (l acc : list (MVar N)) m, In m (map var_name acc) -> In m (map var_name (fold_left push_unshadowed l acc))).
  { induction l as [|v l IH]; intros acc m Hm; [exact Hm|]. apply IH. unfold push_unshadowed. destruct (existsb _ acc); [exact Hm|]. rewrite map_app, in_app_iff. now left. }
  induction (vars c) as [|v l IH]; intros H acc; [destruct H|]. cbn [fold_left]. destruct H as [<-|H]; [|now apply IH].
  apply Mono. unfold push_unshadowed. destruct (existsb _ acc) eqn:E.
  - apply existsb_exists in E as (w & Hw & E). apply str_eqb_eq in E. rewrite <- E. now apply in_map.
  - rewrite map_app, in_app_iff. right. now left.
Qed.

Definition fine (b : AST N) : Prop :=
  covered b \/ (exists l r, b = AOp OSub l r /\ covered l /\ covered r) \/ exists x y, b = quotient_ast x y.

Lemma eval_rec_says n : forall b c last, fine b -> home last b -> keepc c -> ok (eval_rec n b c last).
Proof.
  induction n as [|f IH]; intros b c last Hb Hl Hc; [exact I|].
  destruct Hb as [Hb|[(l & r & -> & Hbl & Hbr)|(x & y & ->)]]; [| |apply quotient_says].
  2:{ cbn [eval_rec]. eapply (sat_bind (fun _ => True)); [|intros ? _; eapply (sat_bind (fun _ => True)); [|intros ? _; apply ops_say]];
        (apply IH; [now left| |exact Hc]; eapply home_child; [|exact Hl]; cbn; auto). }
  assert (Hd : forall d, In d (children b) -> ok (eval_rec f d c last)).
  { intros d Hd. apply IH; [left; eapply covered_child; eauto|eapply home_child; eauto|exact Hc]. }
  assert (Hev : forall b c, fine b -> keepc c -> ok ((fun b c => eval_rec f b c []) b c)).
  { intros b' c' Hb' Hc'. apply IH; [exact Hb'|now left|exact Hc']. }
  assert (Hq : forall x y, fine (quotient_ast x y)) by (intros; right; right; eauto).
  pose proof (Hb b (Node_here b)) as Here.
  cbn [eval_rec]. destruct b as [s|v|m|l|name|name inputs|op l r|e x lb ub|e x a|eqs sv]; cbn [children] in Hd.
  - exact I.
  - eapply (sat_bind (fun _ => True)); [|intros; exact I].
    eapply sat_true; apply (sat_mapM (fun _ => True)); intros i Hi.
    eapply (sat_bind (fun _ => True)); [now apply Hd|intros ? _].
    apply scalars_or_says. exists v. exact Here.
  - eapply (sat_bind (fun _ => True)); [|intros; exact I].
    eapply sat_true; apply (sat_mapM (fun _ => True)); intros i Hi.
    eapply sat_true; apply (sat_mapM (fun _ => True)); intros j Hj.
    eapply (sat_bind (fun _ => True)); [apply Hd, in_concat; eauto|intros ? _].
    apply scalars_or_says. exists m. exact Here.
  - apply concatM_says; intros; now apply Hd.
  - destruct (lookup_var c name) eqn:E; [exact I|]. split; [exact Here|]. intros v Hv <-.
    apply lookup_none in E. apply E. apply Hc. now apply (in_map var_name) in Hv.
  - destruct (str_eqb last name) eqn:El.
    { apply str_eqb_eq in El. subst last. cbn. destruct Hl as [->|(fn & H1 & H2 & H3)]; [right; eauto|left].
      exists fn, inputs. split; [exact H1|]. rewrite H2. apply H3, Node_here. }
    destruct (lookup_fun c name) as [fn|] eqn:E.
    2:{ split; [eauto|]. intros fn Hfn <-. unfold lookup_fun in E. rewrite (proj1 Hc) in E. apply (find_none _ _ E) in Hfn. now rewrite str_eqb_refl in Hfn. }
    unfold lookup_fun in E. apply find_some in E as [Hin Hn]. apply str_eqb_eq in Hn. rewrite (proj1 Hc) in Hin.
    destruct (negb (Nat.eqb _ _)) eqn:En'.
    { apply negb_true_iff, Nat.eqb_neq in En'. exists fn, inputs. rewrite Hn. repeat split; auto. }
    eapply (sat_bind (fun _ => True)).
    { eapply sat_true; apply (sat_mapM (fun _ => True)); intros i Hi. now apply Hd. }
    intros args _. apply concatM_says; intros p _. apply IH.
    + left. intros a Ha. right. eauto.
    + right. exists fn. auto.
    + now apply keeps_call.
  - eapply (sat_bind (fun _ => True)); [apply Hd; cbn; auto|intros ? _].
    eapply (sat_bind (fun _ => True)); [apply Hd; cbn; auto|intros ? _]. apply ops_say.
  - eapply (sat_bind (fun _ => True)); [apply Hd; cbn; auto|intros ? _].
    eapply (sat_bind (fun _ => True)); [apply Hd; cbn; auto|intros ? _].
    apply concatM_says; intros; apply concatM_says; intros.
    apply (integral_says Q HQm _ (funs c0) D fine Hev); [left; eapply covered_child; [|exact Hb]; cbn; auto|exact Hc].
  - eapply (sat_bind (fun _ => True)); [apply Hd; cbn; auto|intros ? _].
    apply concatM_says; intros.
    apply (derivative_says Q HQm _ (funs c0) D fine Hev Hq); [left; eapply covered_child; [|exact Hb]; cbn; auto|exact Hc].
  - apply (solve_says Q HQm _ (funs c0) D fine Hev Hq); [| |intros e He|exact Hc].
    + intros e [<-|[<-|[<-|[<-|[]]]]]; cbn; eauto.
    + intros Hne. cbn. exists eqs, sv. now split.
    + right; left. exists (fst e), (snd e). split; [reflexivity|].
      split; (eapply covered_child; [|exact Hb]); cbn; apply in_flat_map; exists e; split; auto; cbn; auto.
Qed.
End Main.

Theorem errors_truthful {N : Num} {En : Env} (b : AST N) (c : Ctx N) e :
  outcome b c (Err e) -> truthful b c e.
Proof.
  intros [_ [f0 H]]. specialize (H f0 (le_n _)). unfold eval in H.
  pose proof (eval_rec_says b c f0 b c []) as Hs. rewrite H in Hs. apply Hs.
  - left. intros a Ha. now left.
  - now left.
  - split; [reflexivity|]. auto.
Qed.
