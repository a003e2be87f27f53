(** * EvalTotal: termination of [eval] without integrals and with acyclic
    functions; the solver's internal errors never escape. *)
From Coq Require Import List NArith ZArith Bool Lia Arith String.
From Verif Require Import Base BaseFacts F64 Num Types Maths Helpers Parser Eval EvalFuel SpecEval EvalProofs.
Import ListNotations.

Definition sat {E A} (P : A -> Prop) (Q : E -> Prop) (pp pf : Prop) (r : res E A) : Prop :=
  match r with Ok a => P a | Err e => Q e | Panic => pp | Fuel => pf end.

Lemma sat_impl {E A} (P P' : A -> Prop) (Q Q' : E -> Prop) (pp pp' pf pf' : Prop) r :
  (forall a, P a -> P' a) -> (forall e, Q e -> Q' e) -> (pp -> pp') -> (pf -> pf') ->
  sat P Q pp pf r -> sat P' Q' pp' pf' r.
Proof. destruct r; cbn; auto. Qed.
Lemma sat_bind {E A B} (P : A -> Prop) (P' : B -> Prop) (Q : E -> Prop) pp pf r f :
  sat P Q pp pf r -> (forall a, P a -> sat P' Q pp pf (f a)) -> sat P' Q pp pf (bind r f).
Proof. destruct r; cbn; auto. Qed.
Lemma sat_mapM {E A B} (P : B -> Prop) (Q : E -> Prop) pp pf (f : A -> res E B) l :
  (forall x, In x l -> sat P Q pp pf (f x)) -> sat (Forall P) Q pp pf (mapM f l).
Proof.
  induction l as [|x l IH]; intros H; cbn; [constructor|].
  eapply sat_bind; [apply H; now left|]. intros y Hy.
  eapply sat_bind; [apply IH; intros; apply H; now right|]. cbn; intros ys Hys; now constructor.
Qed.
Lemma sat_foldM {E A S} (P : S -> Prop) (Q : E -> Prop) pp pf (f : S -> A -> res E S) l s :
  P s -> (forall s x, P s -> In x l -> sat P Q pp pf (f s x)) -> sat P Q pp pf (foldM f l s).
Proof.
  revert s; induction l as [|x l IH]; intros s Hs H; cbn; [exact Hs|].
  eapply sat_bind; [apply H; [exact Hs|now left]|]. intros s' Hs'.
  apply IH; [exact Hs'|]. intros; apply H; [assumption|now right].
Qed.
Lemma sat_map_err {E F A} (P : A -> Prop) (Q : E -> Prop) (Q' : F -> Prop) pp pf (g : E -> F) r :
  sat P Q pp pf r -> (forall e, Q e -> Q' (g e)) -> sat P Q' pp pf (map_err g r).
Proof. destruct r; cbn; auto. Qed.
Lemma sat_true {E A} (Q : E -> Prop) (pf : Prop) (r : res E A) (P : A -> Prop) :
  sat P Q True pf r -> sat (fun _ => True) Q True pf r.
Proof. destruct r; cbn; auto. Qed.

(** [r] is not [Fuel]. *)
Notation nofuel := (sat (fun _ => True) (fun _ => True) True False).
Lemma nofuel_iff {E A} (r : res E A) : nofuel r <-> r <> Fuel.
Proof. destruct r; cbn; split; intros; try easy. Qed.

Ltac nf :=
  repeat (intros; match goal with
  | |- sat _ _ _ _ (bind _ _) => eapply (sat_bind (fun _ => True)); [|intros ? _]
  | |- sat _ _ _ _ (mapM _ _) => eapply sat_true; apply (sat_mapM (fun _ => True)); intros
  | |- sat _ _ _ _ (foldM _ _ _) => apply (sat_foldM (fun _ => True)); [exact I|intros]
  | |- sat _ _ _ _ (if ?b then _ else _) => destruct b
  | |- sat _ _ _ _ (let '(_, _) := ?x in _) => destruct x
  | |- sat _ _ _ _ (match ?x with _ => _ end) => destruct x
  | |- sat _ _ _ _ (idx _ _) => unfold idx
  | |- sat _ _ _ _ (unwrap ?o) => destruct o; [exact I|exact I]
  | |- sat _ _ _ _ (Ok _) => exact I
  | |- sat _ _ _ _ (Err _) => exact I
  | |- sat _ _ _ _ Panic => exact I
  end).

Section Maths.
Context {N : Num}.
Notation V := (Value N).

Lemma minor_length {A} i (a : list (list A)) : List.length (minor i a) = List.length a - 1.
Proof. unfold minor. rewrite map_length. destruct a; cbn; lia. Qed.

Lemma det_nofuel f (a : list (list T)) : List.length a < f -> nofuel (det_fuel f a).
Proof.
  revert a; induction f as [|f IH]; intros a H; [lia|]. cbn [det_fuel].
  destruct a as [|r a]; [exact I|].
  unfold row0_len, idx2. nf. apply IH. rewrite minor_length; cbn in *; lia.
Qed.
Lemma det_m_nofuel (a : list (list T)) : nofuel (det_m a).
Proof. apply det_nofuel; lia. Qed.

Lemma eliminate_nofuel {E} (z : E) (v : list (list T)) : nofuel (eliminate z v).
Proof. unfold eliminate, elim_row. nf. Qed.

Lemma inv_m_nofuel (a : list (list T)) : nofuel (inv_m a).
Proof.
  unfold inv_m. pose proof (det_m_nofuel a) as H. destruct (det_m a); cbn in H; try exact I; [|easy].
  destruct (match a0 with Scalar s => neqb s n0 | _ => false end); [exact I|].
  eapply (sat_bind (fun _ => True)); [apply eliminate_nofuel|intros ? _].
  eapply (sat_bind (fun _ => True)); [apply eliminate_nofuel|intros ? _]. nf.
Qed.

Lemma mmmult_nofuel (a b : list (list T)) : nofuel (mmmult a b).
Proof. unfold mmmult, row0_len, idx2. nf. Qed.

Lemma iterM_sat {E A} (P : A -> Prop) (Q : E -> Prop) pp pf n (f : A -> res E A) x :
  P x -> (forall y, P y -> sat P Q pp pf (f y)) -> sat P Q pp pf (iterM n f x).
Proof.
  intros Hx Hf. unfold iterM. destruct n; try exact Hx.
  apply Pos.iter_invariant; [|exact Hx]. intros r Hr. eapply sat_bind; [exact Hr|exact Hf].
Qed.

Lemma op_meaning_nofuel {En : Env} op (x y : V) : nofuel (op_meaning op x y).
Proof.
  assert (Hs : forall r : res string V, nofuel r -> nofuel (single r)).
  { intros r Hr. unfold single, rmap. eapply (sat_bind (fun _ => True)); [exact Hr|]. intros; exact I. }
  assert (Hadd : forall x y : V, nofuel (add x y)).
  { intros [] []; cbn [add]; try exact I; unfold sadd, vadd, madd, row0_len, idx2; nf. }
  assert (Hsub : forall x y : V, nofuel (sub x y)).
  { intros a b; destruct a, b; cbn [sub]; try exact I.
    - unfold msub. eapply (sat_bind (fun _ => True)); [unfold row0_len, idx2; nf|].
      intros bn _. apply (Hadd (Matrix m) (Matrix bn)).
    - apply (Hadd (Vector v) (Vector _)). }
  assert (Hsc : forall f ev em (x : V), nofuel (scalar_fn f ev em x)) by (intros f ev em []; exact I).
  assert (Hmul : forall x y : V, nofuel (mult x y)).
  { intros [] []; cbn [mult]; try exact I; try apply mmmult_nofuel;
      unfold smmult, svmult, vvmult, mvmult, row0_len, idx2; nf. }
  destruct op; cbn [op_meaning]; try apply Hs; try apply Hadd; try apply Hsub; try apply Hsc; try apply Hmul;
    try exact I.
  - eapply (sat_bind (fun _ => True)); [apply Hadd|intros ? _].
    eapply (sat_bind (fun _ => True)); [apply Hsub|intros; exact I].
  - destruct y; exact I.
  - destruct x, y; cbn [div]; try exact I; unfold msdiv, smmult, vsdiv, svmult, vvdiv, row0_len, idx2; nf.
  - destruct x, y; cbn [cross]; try exact I; unfold vcross; nf.
  - destruct x, y; cbn [pow]; try exact I. unfold mspow. nf.
    + unfold row0_len; nf.
    + apply iterM_sat; [exact I|]. intros mm _. eapply (sat_bind (fun _ => True)); [apply mmmult_nofuel|].
      intros p _; destruct (get_matrix p); exact I.
  - destruct x, y; cbn [get]; try exact I; nf.
  - destruct x; cbn [abs]; nf.
  - destruct x, y; exact I.
  - destruct x; cbn [det]; try exact I. apply det_m_nofuel.
  - destruct x; cbn [inv]; try exact I. apply inv_m_nofuel.
Qed.
End Maths.

Section Traverse.
Context {N : Num} {En : Env}.
Notation V := (Value N).
Variables (Q : EvalError -> Prop) (pf : Prop).
Hypothesis HQ : forall e, ~ internal e -> Q e.
Notation ok := (sat (fun _ => True) Q True pf).

Lemma nofuel_ok {A} (r : res EvalError A) :
  nofuel r -> (forall e, r = Err e -> Q e) -> ok r.
Proof. destruct r; cbn; auto. easy. Qed.

Lemma HQm s : Q (MathError s).
Proof. apply HQ; intros [|[|]]; congruence. Qed.

Lemma mathe_ok {A} (r : res string A) : nofuel r -> ok (mathe r).
Proof. destruct r; cbn; auto using HQm. easy. Qed.

Lemma apply_op_ok op (x y : V) : ok (apply_op op x y).
Proof.
  rewrite apply_op_meaning. apply mathe_ok, op_meaning_nofuel.
Qed.

Lemma add_ok (x y : V) : ok (mathe (add x y)).
Proof.
  apply mathe_ok. pose proof (op_meaning_nofuel OAdd x y) as H; cbn [op_meaning] in H.
  unfold single, rmap in H. destruct (add x y); exact H.
Qed.
Lemma mult_ok (x y : V) : ok (mathe (mult x y)).
Proof.
  apply mathe_ok. pose proof (op_meaning_nofuel OMult x y) as H; cbn [op_meaning] in H.
  unfold single, rmap in H. destruct (mult x y); exact H.
Qed.

Lemma concatM_ok {A B} (f : A -> res EvalError (list B)) l :
  (forall x, In x l -> ok (f x)) -> ok (concatM f l).
Proof.
  intros H; unfold concatM. eapply (sat_bind (fun _ => True)); [|intros; exact I].
  eapply sat_true. apply (sat_mapM (fun _ => True)). exact H.
Qed.

Lemma scalars_or_sat e vs : Q e -> ok (scalars_or e vs).
Proof.
  intros He; unfold scalars_or. eapply sat_true. apply (sat_mapM (fun _ => True)); intros v _.
  destruct (get_scalar v); [exact I|exact He].
Qed.

Ltac ok1 :=
  match goal with
  | |- sat _ _ _ _ (bind _ _) => eapply (sat_bind (fun _ => True)); [|intros ? _]
  | |- sat _ _ _ _ (mapM _ _) => eapply sat_true; apply (sat_mapM (fun _ => True)); intros
  | |- sat _ _ _ _ (if ?b then _ else _) => destruct b
  | |- sat _ _ _ _ (match ?x with _ => _ end) => destruct x
  | |- sat _ _ _ _ (idx _ _) => unfold idx
  | |- sat _ _ _ _ (unwrap ?o) => destruct o; [exact I|exact I]
  | |- sat _ _ _ _ (Ok _) => exact I
  | |- sat _ _ _ _ Panic => exact I
  | |- sat _ _ _ _ (Err _) => cbn; apply HQ; intros [|[|]]; congruence
  end.
Ltac oks := repeat (intros; ok1).

Section Higher.
Variable ev : AST N -> Ctx N -> res EvalError (list V).
Variable FS : list (MFun N).
Variable good : AST N -> Prop.
Hypothesis Hev : forall b c, good b -> funs c = FS -> ok (ev b c).
Hypothesis good_quot : forall x y, good (quotient_ast x y).

Lemma add_samples_ok (sums es : list V) : ok (add_samples sums es).
Proof.
  revert sums; induction es as [|e es IH]; intros [|s sums]; cbn [add_samples]; try exact I.
  - eapply (sat_bind (fun _ => True)); [apply IH|intros; exact I].
  - eapply (sat_bind (fun _ => True)); [apply add_ok|intros ? _].
    eapply (sat_bind (fun _ => True)); [apply IH|intros; exact I].
Qed.

Lemma integral_loop_ok f e x c vs dx ub b sums :
  (pf \/ f = f + 1) -> good e -> funs c = FS -> ok (integral_loop ev f e x c vs dx ub b sums).
Proof.
  intros Hf He Hc. assert (Hpf : pf) by (destruct Hf; [assumption|lia]). clear Hf.
  revert b sums; induction f as [|f IH]; intros b sums; cbn [integral_loop]; [exact Hpf|].
  destruct (nltb b ub); [|exact I].
  eapply (sat_bind (fun _ => True)); [apply Hev; auto|intros ? _].
  eapply (sat_bind (fun _ => True)); [apply add_samples_ok|intros ? _]. apply IH.
Qed.

Lemma integral_ok f e x l u c :
  pf -> good e -> funs c = FS -> ok (calculate_integral ev f e x l u c).
Proof.
  intros Hf He Hc. unfold calculate_integral. oks.
  all: try (apply integral_loop_ok; auto). all: apply mult_ok.
Qed.

Lemma derivative_ok e x a c :
  good e -> funs c = FS -> ok (fst (calculate_derivative ev e x a c)).
Proof.
  intros He Hc. unfold calculate_derivative.
  destruct a; try (cbn; apply HQm).
  match goal with |- context [ev e ?c1] => pose proof (Hev e c1 He Hc) as H1; destruct (ev e c1) end;
    try exact H1.
  match goal with |- context [ev e ?c1] => pose proof (Hev e c1 He Hc) as H2; destruct (ev e c1) end;
    try exact H2.
  destruct (negb _); [apply HQm|].
  match goal with |- context [mapM ?f ?l] => assert (H3 : ok (mapM f l)) end.
  { oks. apply Hev; auto. }
  match goal with |- context [mapM ?f ?l] => destruct (mapM f l) end; exact H3.
Qed.

Lemma derivative_newton_ok e x a fx c :
  good e -> funs c = FS -> ok (calculate_derivative_newton ev e x a fx c).
Proof. intros He Hc. unfold calculate_derivative_newton. oks; apply Hev; auto. Qed.

(** Inside the solver internal errors may occur. *)
Notation ok' := (sat (fun _ => True) (fun e => Q e \/ internal e) True pf).
Lemma ok_ok' {A} (r : res EvalError A) : ok r -> ok' r.
Proof. apply sat_impl; auto. Qed.

Lemma gauss_ok v : ok' (gauss_algorithm v).
Proof.
  assert (H : nofuel (gauss_algorithm v)).
  { unfold gauss_algorithm, row0_len.
    repeat first [ match goal with |- sat _ _ _ _ (eliminate _ _) => apply eliminate_nofuel end | nf ]. }
  destruct (gauss_algorithm v) as [| e | |] eqn:E; try exact I; [|easy]. cbn.
  destruct e; try (left; apply HQ; intros [|[|]]; discriminate); right; unfold internal; auto.
Qed.

Lemma jacobi_ok s x c fx :
  Forall good s -> funs c = FS -> ok' (jacobi_and_gauss ev s x c fx).
Proof.
  intros Hs Hc. unfold jacobi_and_gauss.
  eapply (sat_bind (fun _ => True)).
  { apply ok_ok'. eapply sat_true. apply (sat_mapM (fun _ => True)). intros i _.
    unfold idx at 1. destruct (nth_error s i) as [e|] eqn:Ei; [|exact I]. cbn [unwrap bind].
    assert (He : good e) by (eapply Forall_forall; [exact Hs|eapply nth_error_In, Ei]).
    oks. apply derivative_newton_ok; auto. }
  intros jac _. eapply (sat_bind (fun _ => True)).
  { apply ok_ok'. oks. }
  intros aug _. eapply (sat_bind (fun _ => True)); [apply gauss_ok|]. intros d _.
  apply ok_ok'. unfold first_scalar. oks.
Qed.

Lemma eval_scalar_ok c e : good e -> funs c = FS -> ok (eval_scalar ev c e).
Proof. intros He Hc. unfold eval_scalar. oks. apply Hev; auto. Qed.

Lemma add_all_funs c x : funs (add_all c x) = funs c.
Proof. revert c; induction x as [|v x IH]; intros c; [reflexivity|]. etransitivity; [apply IH|reflexivity]. Qed.
Lemma remove_all_funs c x : funs (remove_all c x) = funs c.
Proof. revert c; induction x as [|v x IH]; intros c; [reflexivity|]. etransitivity; [apply IH|reflexivity]. Qed.

Lemma newton_funs s k x c : funs (snd (newton ev s k x c)) = funs c.
Proof.
  unfold newton.
  repeat match goal with
  | |- context [match ?r with _ => _ end] => destruct r; cbn [snd]
  end; rewrite ?remove_all_funs, ?add_all_funs, ?remove_all_funs, ?add_all_funs; reflexivity.
Qed.

Lemma newton_ok s k x c :
  Forall good s -> Forall good k -> funs c = FS -> ok' (fst (newton ev s k x c)).
Proof.
  intros Hs Hk Hc. unfold newton.
  assert (H1 : forall c', funs c' = FS -> forall l, Forall good l -> ok (mapM (eval_scalar ev c') l)).
  { intros c' Hc' l Hl. eapply sat_true. apply (sat_mapM (fun _ => True)). intros e He.
    apply eval_scalar_ok; auto. eapply Forall_forall; eauto. }
  assert (E1 : funs (add_all c x) = FS) by now rewrite add_all_funs.
  pose proof (H1 _ E1 s Hs) as Hm. destruct (mapM (eval_scalar ev (add_all c x)) s) as [fx|e| |];
    try (cbn in *; auto; fail).
  destruct (small fx).
  - assert (E3 : funs (add_all (remove_all (add_all c x) x) x) = FS)
      by now rewrite add_all_funs, remove_all_funs, add_all_funs.
    pose proof (H1 _ E3 k Hk) as Hm'.
    destruct (mapM (eval_scalar ev (add_all (remove_all (add_all c x) x) x)) k) as [cr|e| |];
      try (cbn in *; auto; fail).
    destruct cr; [exact I|]. destruct (small _); [exact I|]. cbn. right; unfold internal; auto.
  - assert (E2 : funs (remove_all (add_all c x) x) = FS) by now rewrite remove_all_funs, add_all_funs.
    pose proof (jacobi_ok s x _ fx Hs E2) as Hj.
    destruct (jacobi_and_gauss ev s x (remove_all (add_all c x) x) fx) as [nx|e| |];
      try (cbn in *; auto; fail).
    match goal with |- context [mapM ?f nx] => assert (H3 : ok (mapM f nx)) by oks; destruct (mapM f nx) end;
      try (cbn in *; auto; fail).
    destruct (existsb _ _); [|exact I]. cbn; right; unfold internal; auto.
Qed.

Lemma newton_loop_ok n s k x c :
  Forall good s -> Forall good k -> funs c = FS ->
  sat (fun r => funs (snd r) = FS) Q True pf (newton_loop ev n s k x c).
Proof.
  intros Hs Hk; revert x c; induction n as [|n IH]; intros x c Hc; cbn [newton_loop]; [exact Hc|].
  pose proof (newton_ok s k x c Hs Hk Hc) as Hn. pose proof (newton_funs s k x c) as Hfn.
  destruct (newton ev s k x c) as [r c']; cbn in Hn, Hfn. rewrite Hc in Hfn.
  destruct r as [[y|y]|e| |]; try exact Hn.
  - apply IH; auto.
  - eapply (sat_bind (fun _ => True)).
    { unfold first_scalar. oks. }
    intros rs _. destruct rs as [|r0 [|r1 rs]]; exact Hfn.
  - destruct e; cbn; auto; apply HQ; intros [|[|]]; congruence.
Qed.

Lemma start_loop_ok js s k sv c r :
  Forall good s -> Forall good k -> funs c = FS -> ok (start_loop ev js s k sv c r).
Proof.
  intros Hs Hk; revert c r; induction js as [|j js IH]; intros c r Hc; cbn [start_loop]; [exact I|].
  eapply sat_bind; [apply newton_loop_ok; auto|]. intros [[v stop] c'] Hc'; cbn in Hc'.
  destruct stop; [exact I|]. apply IH; auto.
Qed.

Lemma In_others {A} i (l : list A) y : In y (firstn i l ++ skipn (S i) l) -> In y l.
Proof. revert l; induction i as [|i IH]; intros [|z l]; cbn; auto. intros [H|H]; auto. Qed.

Lemma split_exprs_ok es comb :
  Forall good es -> sat (fun sc => Forall good (fst sc) /\ Forall good (snd sc)) Q True pf (split_exprs es comb).
Proof.
  intros Hes. unfold split_exprs.
  eapply sat_bind.
  - apply (sat_foldM (fun s => Forall good (fst (fst s)) /\ Forall good (snd (fst s)))); [cbn; auto|].
    intros [[se ch] rm] j [H1 H2] _; cbn in H1, H2.
    destruct (Nat.ltb j rm); [exact I|].
    unfold take_at, idx. destruct (nth_error ch (j - rm)) as [x|] eqn:E; [|exact I]. cbn [unwrap bind fst snd sat].
    split; [apply Forall_app; split; [exact H1|constructor; [|constructor]]|].
    + eapply Forall_forall; [exact H2|]. eapply nth_error_In, E.
    + apply Forall_forall; intros y Hy. eapply Forall_forall; [exact H2|].
      now apply (In_others (j - rm)).
  - intros s Hs; exact Hs.
Qed.

Lemma sort_key_ok key l : ok (sort_key key l).
Proof. unfold sort_key. oks. Qed.

Lemma clean_results_ok l : ok (clean_results l).
Proof.
  unfold clean_results. destruct l as [|r0 l]; [exact I|].
  destruct r0; try exact I; destruct (Nat.ltb _ _); try exact I;
    (eapply (sat_bind (fun _ => True)); [apply sort_key_ok|intros ? _]);
    (eapply (sat_bind (fun _ => True)); [unfold slice; oks|intros ? _]); apply sort_key_ok.
Qed.

Lemma comb_loop_ok cs es c sv :
  Forall good es -> funs c = FS -> ok (comb_loop ev cs es c sv).
Proof.
  intros Hes Hc; induction cs as [|i cs IH]; cbn [comb_loop]; [exact I|].
  eapply sat_bind; [now apply split_exprs_ok|]. intros sc [H1 H2].
  eapply (sat_bind (fun _ => True)); [now apply start_loop_ok|intros ? _].
  eapply (sat_bind (fun _ => True)); [apply clean_results_ok|intros cl _].
  destruct cl; [exact IH|exact I].
Qed.

Lemma fold_add_funs (sv : list str) c :
  funs (fold_left (fun c n => add_var c (mkVar n [Scalar nprobe])) sv c) = funs c.
Proof. revert c; induction sv as [|v x IH]; intros c; [reflexivity|]. etransitivity; [apply IH|reflexivity]. Qed.
Lemma fold_remove_funs (sv : list str) (c : Ctx N) : funs (fold_left remove_var sv c) = funs c.
Proof. revert c; induction sv as [|v x IH]; intros c; [reflexivity|]. etransitivity; [apply IH|reflexivity]. Qed.

Lemma rf_new_ok es c sv :
  Forall good es -> funs c = FS ->
  sat (fun rf => rf_expressions rf = es /\ funs (rf_context rf) = FS /\ rf_search_vars rf = sv)
      Q True pf (rf_new ev es c sv).
Proof.
  intros Hes Hc. unfold rf_new. destruct es as [|e0 es]; [cbn; apply HQ; intros [|[|]]; discriminate|].
  repeat match goal with |- sat _ _ _ _ (if ?b then Err _ else _) =>
    destruct b; [cbn; apply HQ; intros [|[|]]; discriminate|] end.
  eapply (sat_bind (fun _ => True)).
  { apply Hev; [now inversion Hes|]. now rewrite fold_add_funs. }
  intros vs _. unfold idx. destruct (nth_error vs 0) as [v|]; [|exact I]. cbn [unwrap bind].
  destruct v; try (cbn; apply HQ; intros [|[|]]; discriminate).
  cbn. rewrite fold_remove_funs, fold_add_funs. auto.
Qed.

Lemma solve_ok eqs c sv :
  Forall (fun e => good (AOp OSub (fst e) (snd e))) eqs -> funs c = FS -> ok (solve ev eqs c sv).
Proof.
  intros Hes Hc. unfold solve.
  assert (Hg : Forall good (map (fun i => AOp OSub (fst i) (snd i)) eqs)).
  { apply Forall_map. exact Hes. }
  eapply sat_bind; [now apply rf_new_ok|]. intros rf (E1 & E2 & E3).
  unfold find_roots. apply comb_loop_ok; [now rewrite E1|exact E2].
Qed.
End Higher.
End Traverse.

Section Internal.
Context {N : Num} {En : Env}.
Notation V := (Value N).

Lemma eval_rec_not_internal n : forall (b : AST N) c last,
  sat (fun _ : list V => True) (fun e => ~ internal e) True True (eval_rec n b c last).
Proof.
  induction n as [|f IH]; intros b c last; [exact I|].
  assert (HI : forall e : EvalError, ~ internal e -> ~ internal e) by auto.
  assert (Hni : forall e, (forall p : Prop, e = InfiniteSolutions \/ e = NaNOrInf \/ e = ExpressionCheckFailed -> p) -> ~ internal e)
    by (intros e H Hi; exact (H False Hi)).
  cbn [eval_rec]. destruct b as [s|v|m|l|name|name inputs|op l r|e x lb ub|e x a|eqs sv].
  - exact I.
  - eapply (sat_bind (fun _ => True)); [|intros; exact I].
    eapply sat_true; apply (sat_mapM (fun _ => True)); intros i _.
    eapply (sat_bind (fun _ => True)); [apply IH|intros ? _].
    apply scalars_or_sat. intros [|[|]]; discriminate.
  - eapply (sat_bind (fun _ => True)); [|intros; exact I].
    eapply sat_true; apply (sat_mapM (fun _ => True)); intros i _.
    eapply sat_true; apply (sat_mapM (fun _ => True)); intros j _.
    eapply (sat_bind (fun _ => True)); [apply IH|intros ? _].
    apply scalars_or_sat. intros [|[|]]; discriminate.
  - apply concatM_ok; intros; apply IH.
  - destruct (lookup_var c name); [exact I|cbn; intros [|[|]]; discriminate].
  - destruct (str_eqb last name); [cbn; intros [|[|]]; discriminate|].
    destruct (lookup_fun c name); [|cbn; intros [|[|]]; discriminate].
    destruct (negb _); [cbn; intros [|[|]]; discriminate|].
    eapply (sat_bind (fun _ => True)); [|intros ? _; apply concatM_ok; intros; apply IH].
    eapply sat_true; apply (sat_mapM (fun _ => True)); intros i _. apply IH.
  - eapply (sat_bind (fun _ => True)); [apply IH|intros ? _].
    eapply (sat_bind (fun _ => True)); [apply IH|intros ? _].
    apply concatM_ok; intros; apply concatM_ok; intros. now apply apply_op_ok.
  - eapply (sat_bind (fun _ => True)); [apply IH|intros ? _].
    eapply (sat_bind (fun _ => True)); [apply IH|intros ? _].
    apply concatM_ok; intros; apply concatM_ok; intros.
    apply (integral_ok _ True HI _ (funs c) (fun _ => True)); auto.
  - eapply (sat_bind (fun _ => True)); [apply IH|intros ? _].
    apply concatM_ok; intros.
    apply (derivative_ok _ True HI _ (funs c) (fun _ => True)); auto.
  - apply (solve_ok _ True HI _ (funs c) (fun _ => True)); auto.
    apply Forall_forall; auto.
Qed.

Theorem internal_never_escapes (b : AST N) c e :
  outcome b c (Err e) -> ~ internal e.
Proof.
  intros [_ [f0 H]]. pose proof (eval_rec_not_internal f0 b c []) as Hs.
  unfold eval in H. rewrite (H f0 (le_n _)) in Hs. exact Hs.
Qed.
End Internal.

Section Terminates.
Context {N : Num} {En : Env}.
Notation V := (Value N).
Notation lmax l := (fold_right Nat.max 0 l).

Fixpoint depth (a : AST N) : nat :=
  match a with
  | AScalar _ | AVar _ => 1
  | AVector v => S (lmax (map depth v))
  | AMatrix m => S (lmax (map (fun r => lmax (map depth r)) m))
  | AList l => S (lmax (map depth l))
  | AFun _ inputs => S (lmax (map depth inputs))
  | AOp _ l r => S (Nat.max (depth l) (depth r))
  | AInt e _ l u => S (Nat.max (depth e) (Nat.max (depth l) (depth u)))
  | ADer e _ at_ => S (Nat.max (depth e) (depth at_))
  | AEq eqs _ => S (S (lmax (map (fun e => Nat.max (depth (fst e)) (depth (snd e))) eqs)))
  end.

Lemma lmax_ge l x : In x l -> x <= lmax l.
Proof. induction l; cbn; [easy|]. intros [->|H]; [|apply IHl in H]; lia. Qed.
Lemma lmax_map {A} (f : A -> nat) l x : In x l -> f x <= lmax (map f l).
Proof. intros H; apply lmax_ge, in_map, H. Qed.

Notation ok := (sat (fun _ : list V => True) (fun _ : EvalError => True) True False).
Let HT : forall e : EvalError, ~ internal e -> True := fun _ _ => I.

Lemma from_value_nofuel n (v : V) c last : 2 <= n -> ok (eval_rec n (ast_from_value v) c last).
Proof.
  intros H; destruct n as [|[|n]]; try lia. destruct v; cbn [ast_from_value eval_rec]; [| |exact I].
  - eapply (sat_bind (fun _ => True)); [|intros; exact I].
    eapply sat_true; apply (sat_mapM (fun _ => True)); intros i Hi.
    apply in_map_iff in Hi as (r & <- & _).
    eapply sat_true; apply (sat_mapM (fun _ => True)); intros j Hj.
    apply in_map_iff in Hj as (x & <- & _). exact I.
  - eapply (sat_bind (fun _ => True)); [|intros; exact I].
    eapply sat_true; apply (sat_mapM (fun _ => True)); intros i Hi.
    apply in_map_iff in Hi as (x & <- & _). exact I.
Qed.

Lemma quotient_nofuel n (a b : V) c last : 4 <= n -> ok (eval_rec n (quotient_ast a b) c last).
Proof.
  intros H; destruct n as [|[|n]]; try lia. unfold quotient_ast.
  cbn [eval_rec].
  eapply (sat_bind (fun _ => True)); [|intros ? _].
  - eapply (sat_bind (fun _ => True)); [apply from_value_nofuel; lia|intros ? _].
    eapply (sat_bind (fun _ => True)); [apply from_value_nofuel; lia|intros ? _].
    apply concatM_ok; intros; apply concatM_ok; intros. apply apply_op_ok; auto.
  - cbn [bind]. apply concatM_ok; intros; apply concatM_ok; intros. apply apply_op_ok; auto.
Qed.

Variable FS : list (MFun N).
Variable rank : str -> nat.
Hypothesis HFS : forall fn, In fn FS ->
  no_integral (fun_ast fn) = true /\ forall g, In g (calls (fun_ast fn)) -> rank g < rank (fun_name fn).

Definition below (r : nat) (b : AST N) : Prop :=
  no_integral b = true /\ forall g, In g (calls b) -> rank g < r.

Lemma below_flat {A} r (l : list A) (f : A -> list str) :
  (forall g, In g (flat_map f l) -> rank g < r) -> forall x, In x l -> forall g, In g (f x) -> rank g < r.
Proof. intros H x Hx g Hg; apply H, in_flat_map; eauto. Qed.

Lemma terminates_rank r :
  exists B, forall n b c last, below r b -> funs c = FS -> depth b + B <= n -> ok (eval_rec n b c last).
Proof.
  assert (Hstep : forall r B, 4 <= B ->
    (forall n fn c last name, lookup_fun c name = Some fn -> funs c = FS -> rank name < r ->
       B <= n -> ok (eval_rec n (fun_ast fn) c last)) ->
    forall n b c last, below r b -> funs c = FS -> depth b + B <= n -> ok (eval_rec n b c last)).
  { clear r. intros r B HB4 Hbody. induction n as [|f IH]; intros b c last [Hi Hc] HF Hn; [lia|].
    assert (Hd : 1 <= depth b) by (destruct b; cbn; lia).
    set (good := fun b => (below r b /\ depth b + B <= f) \/ exists x y, b = quotient_ast x y).
    assert (Hev : forall b c, good b -> funs c = FS -> ok (eval_rec f b c [])).
    { intros b' c' [[H1 H2]|(x & y & ->)] HF'; [now apply IH|]. apply quotient_nofuel. clear -Hd Hn HB4. lia. }
    assert (Hq : forall x y, good (quotient_ast x y)) by (intros x y; right; eauto).
    cbn [eval_rec]. destruct b as [s|v|m|l|name|name inputs|op l r0|e x lb ub|e x a|eqs sv]; cbn [depth no_integral calls] in Hn, Hi, Hc.
    - exact I.
    - eapply (sat_bind (fun _ => True)); [|intros; exact I].
      eapply sat_true; apply (sat_mapM (fun _ => True)); intros i Hin.
      eapply (sat_bind (fun _ => True)); [|intros ? _; now apply scalars_or_sat].
      rewrite forallb_forall in Hi. pose proof (lmax_map depth _ _ Hin).
      apply IH; [split; [now apply Hi|eapply below_flat; eauto]|exact HF|lia].
    - eapply (sat_bind (fun _ => True)); [|intros; exact I].
      eapply sat_true; apply (sat_mapM (fun _ => True)); intros i Hin.
      eapply sat_true; apply (sat_mapM (fun _ => True)); intros j Hjn.
      eapply (sat_bind (fun _ => True)); [|intros ? _; now apply scalars_or_sat].
      rewrite forallb_forall in Hi. pose proof (Hi _ Hin) as Hi'. rewrite forallb_forall in Hi'.
      pose proof (lmax_map (fun r => lmax (map depth r)) _ _ Hin). pose proof (lmax_map depth _ _ Hjn).
      apply IH; [split; [now apply Hi'|]|exact HF|cbn in *; lia].
      pose proof (below_flat _ _ _ Hc _ Hin) as Hc'. eapply below_flat; [exact Hc'|exact Hjn].
    - apply concatM_ok; intros i Hin.
      rewrite forallb_forall in Hi. pose proof (lmax_map depth _ _ Hin).
      apply IH; [split; [now apply Hi|eapply below_flat; eauto]|exact HF|lia].
    - destruct (lookup_var c name); exact I.
    - destruct (str_eqb last name); [exact I|].
      destruct (lookup_fun c name) as [fn|] eqn:El; [|exact I].
      destruct (negb _); [exact I|].
      eapply (sat_bind (fun _ => True)).
      + eapply sat_true; apply (sat_mapM (fun _ => True)); intros i Hin.
        rewrite forallb_forall in Hi. pose proof (lmax_map depth _ _ Hin).
        apply IH; [split; [now apply Hi|]|exact HF|lia].
        eapply below_flat; [|exact Hin]. intros g Hg; apply Hc; now right.
      + intros args _. apply concatM_ok; intros p _.
        apply (Hbody f fn _ name name); [exact El|exact HF|apply Hc; now left|lia].
    - apply andb_true_iff in Hi as [Hi1 Hi2].
      eapply (sat_bind (fun _ => True)).
      { apply IH; [split; [exact Hi1|intros g Hg; apply Hc, in_app_iff; auto]|exact HF|lia]. }
      intros ? _. eapply (sat_bind (fun _ => True)).
      { apply IH; [split; [exact Hi2|intros g Hg; apply Hc, in_app_iff; auto]|exact HF|lia]. }
      intros ? _. apply concatM_ok; intros; apply concatM_ok; intros. now apply apply_op_ok.
    - discriminate.
    - apply andb_true_iff in Hi as [Hi1 Hi2].
      eapply (sat_bind (fun _ => True)).
      { apply IH; [split; [exact Hi2|intros g Hg; apply Hc, in_app_iff; auto]|exact HF|lia]. }
      intros ? _. apply concatM_ok; intros.
      apply (derivative_ok _ False HT _ FS good); auto.
      left. split; [split; [exact Hi1|intros g Hg; apply Hc, in_app_iff; auto]|lia].
    - apply (solve_ok _ False HT _ FS good); auto. apply Forall_forall. intros e He.
      rewrite forallb_forall in Hi. pose proof (Hi _ He) as Hi'. apply andb_true_iff in Hi' as [Hi1 Hi2].
      pose proof (lmax_map (fun e => Nat.max (depth (fst e)) (depth (snd e))) _ _ He). cbn in *.
      left; split; [split; [cbn; now rewrite Hi1, Hi2|exact (below_flat _ _ _ Hc _ He)]|cbn; lia]. }
  induction r as [|r [B IHr]].
  - exists 4. apply Hstep; [lia|]. intros; lia.
  - set (D := lmax (map (fun fn => depth (fun_ast fn)) FS)).
    exists (4 + D + B). apply Hstep; [lia|].
    intros n fn c last name El HF Hr Hn. unfold lookup_fun in El. apply find_some in El as [Hin Hnm].
    apply str_eqb_eq in Hnm. rewrite HF in Hin. destruct (HFS fn Hin) as [H1 H2].
    apply IHr; [split; [exact H1|intros g Hg; specialize (H2 g Hg); rewrite Hnm in H2; lia]|exact HF|].
    pose proof (lmax_map (fun fn => depth (fun_ast fn)) FS fn Hin). unfold D in Hn. cbn in *. lia.
Qed.
End Terminates.

Theorem eval_terminates {N : Num} {En : Env} (b : AST N) c :
  no_integral b = true -> acyclic c -> exists r, outcome b c r.
Proof.
  intros Hb [rank HF].
  destruct (terminates_rank (funs c) rank HF (S (fold_right Nat.max 0 (map rank (calls b))))) as [B HB].
  pose proof (HB (depth b + B) b c []) as H. specialize (H).
  assert (Hs : sat (fun _ => True) (fun _ => True) True False (eval_rec (depth b + B) b c [])).
  { apply H; auto. split; [exact Hb|]. intros g Hg. pose proof (lmax_map rank _ _ Hg). cbn in *. lia. }
  exists (eval (depth b + B) b c). unfold eval. apply outcome_intro with (f := depth b + B); [reflexivity|].
  intros E; rewrite E in Hs; exact Hs.
Qed.
