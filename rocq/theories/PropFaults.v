(** * PropFaults: C83 - where the errors and panics of eq come from. *)
From Coq Require Import List NArith ZArith Bool Lia Arith String.
From Verif Require Import Base BaseFacts F64 Num Types Maths Helpers Parser Eval EvalFuel EvalTotal SpecEval
  FloatFacts SolveFloat EvalProofs ContextProofs GrammarSpec MathsForms CalcSpec CalcProofs SolveSpec SolveProofs SolveProofs2 PropSolve SolveForward SearchSpec Search PropSearch KindSpec PropKinds PropAnswers Toy.
Import ListNotations.
Local Open Scope list_scope.

(** ** What is said *)
Section Spec.
Context {N : Num} {En : Env}.
Notation V := (Value N).
Notation equation := (AST N * AST N)%type.
(** [yields b c r]: what the expression [b] gives at [c]. *)
Variable yields : AST N -> Ctx N -> res EvalError (list V) -> Prop.
Definition difference (e : equation) : AST N := AOp OSub (fst e) (snd e).
Definition shape_message (v : V) : string :=
  match v with Vector _ => "Can't subtract scalar from vector!" | _ => "Can't subtract scalar from matrix!" end.
(** The equation [e] goes wrong at [c], with the error or panic [r]: its difference
    has this error or panic, has no value at all, or its first value is not a number. *)
Inductive goes_wrong (c : Ctx N) (e : equation) : res EvalError (list V) -> Prop :=
| gw_error x : yields (difference e) c (Err x) -> goes_wrong c e (Err x)
| gw_panic : yields (difference e) c Panic -> goes_wrong c e Panic
| gw_no_value : yields (difference e) c (Ok []) -> goes_wrong c e Panic
| gw_no_number v rest : yields (difference e) c (Ok (v :: rest)) -> (forall s, v <> Scalar s) -> goes_wrong c e Panic
| gw_no_number_error v rest : yields (difference e) c (Ok (v :: rest)) -> (forall s, v <> Scalar s) ->
    goes_wrong c e (Err (MathError (shape_message v))).
End Spec.

(** ** Errors and panics alike *)
Definition tag {E A} (r : res E A) : option (option E) := match r with Err e => Some (Some e) | Panic => Some None | _ => None end.
Lemma tag_bind {E A B} (r : res E A) (f : A -> res E B) t : tag (bind r f) = Some t -> tag r = Some t \/ exists a, r = Ok a /\ tag (f a) = Some t.
Proof. destruct r; cbn; eauto. Qed.
Lemma tag_mapM {E A B} (f : A -> res E B) l t : tag (mapM f l) = Some t -> exists x, In x l /\ tag (f x) = Some t.
Proof.
  induction l as [|x l IH]; [discriminate|]. cbn [mapM]. intros H. apply tag_bind in H as [H|(y & _ & H)]; [exists x; cbn; auto|].
  apply tag_bind in H as [H|(ys & _ & H)]; [|discriminate]. destruct (IH H) as (z & Hz & Ez). exists z. cbn; auto.
Qed.

Section Faults.
Context {N : Num} {En : Env}.
Notation V := (Value N).
Notation equation := (AST N * AST N)%type.
Notation sub e := (AOp OSub (fst e) (snd e)).
Variable ev : AST N -> Ctx N -> res EvalError (list V).
Hypothesis Hag : forall b c1 c2, (forall n, named n (vars c1) = named n (vars c2)) -> funs c1 = funs c2 -> ev b c1 = ev b c2.
Hypothesis Hquot : forall y y0 c, ev (quotient_ast (Scalar y) (Scalar y0)) c = Ok [Scalar (ndiv (nadd y (nmul y0 nm1)) step_h)].
Hypothesis Hquot2 : forall v y0 c, (forall s, v <> Scalar s) -> ev (quotient_ast v (Scalar y0)) c = Err (MathError (shape_message v)).
Hypothesis Hint : forall b c e, ev b c = Err e -> ~ internal e.
Variables (search check : list equation) (sv : list str) (c : Ctx N).
Hypothesis Hnd : NoDup sv.
Hypothesis Hd : undefined c sv.
Hypothesis Hle : List.length search = List.length sv.
Hypothesis Hne : sv <> [].
Notation es := (map (fun i => sub i) search).
Notation ks := (map (fun i => sub i) check).
Notation n := (List.length sv).

Definition as_res {A} (t : option EvalError) : res EvalError A := match t with Some e => Err e | None => Panic end.
Definition wrong_at (eqs : list equation) (t : option EvalError) : Prop :=
  exists xs e, List.length xs = n /\ In e eqs /\ goes_wrong (fun b c r => ev b c = r) (set_nums c sv xs) e (as_res t).

Lemma eval_scalar_wrong xs eqs t : List.length xs = n -> tag (mapM (eval_scalar ev (set_nums c sv xs)) (map (fun i => sub i) eqs)) = Some t -> wrong_at eqs t.
Proof.
  intros Hx H. apply tag_mapM in H as (b & Hb & H). apply in_map_iff in Hb as (e & <- & He). exists xs, e. split; [exact Hx|]. split; [exact He|].
  unfold eval_scalar in H. destruct (ev (sub e) (set_nums c sv xs)) as [[|v rest]|x| |] eqn:E; cbn in H; try discriminate.
  - injection H as <-. now apply gw_no_value.
  - destruct v; cbn in H; try discriminate; injection H as <-; eapply gw_no_number; eauto; discriminate.
  - injection H as <-. now apply gw_error.
  - injection H as <-. now apply gw_panic.
Qed.

(** One entry of the Jacobian: if it cannot be computed, the equation goes wrong
    beside the point; if it can, the equation has a number there. *)
Lemma cell xs rs i j (r : res EvalError T) : List.length xs = n -> List.length rs = n -> i < n -> j < n ->
  r = (do xj <- idx (pvars sv xs) j; do at_ <- idx (var_values xj) 0; do f <- idx rs i;
       do d <- calculate_derivative_newton ev (sub (nth i search (AList [], AList []))) (var_name xj) at_ (Some (Scalar f))
                 (mkCtx (vars c ++ others j (pvars sv xs)) (funs c)); unwrap (get_scalar d)) ->
  (forall y, r = Ok y -> exists y, ev_miss ev (set_nums c sv (bump j xs)) (nth i search (AList [], AList [])) y) /\
  (forall t, tag r = Some t -> wrong_at search t).
Proof.
  intros Hl Hr Hi Hj Er.
  assert (Hx : @idx EvalError _ (pvars sv xs) j = Ok (mkVar (nth j sv []) [Scalar (com xs j)])).
  { unfold idx. rewrite pvars_nth by exact Hl.
    rewrite (nth_error_nth' sv []) by exact Hj. rewrite (nth_error_nth' xs n0) by (rewrite Hl; exact Hj). reflexivity. }
  rewrite Hx in Er. cbn [bind var_values var_name idx nth_error unwrap] in Er.
  change (match nth_error rs i with Some x => Ok x | None => Panic end) with (@idx EvalError _ rs i) in Er.
  rewrite idx_com in Er by lia. cbn [bind] in Er. unfold calculate_derivative_newton in Er. cbn [bind] in Er.
  set (e := nth i search (AList [], AList [])) in *.
  assert (He : In e search) by (apply nth_In; lia).
  assert (Ee : forall b, ev b (add_var (remove_var (mkCtx (vars c ++ others j (pvars sv xs)) (funs c)) (nth j sv [])) (mkVar (nth j sv []) [Scalar (nadd (com xs j) eps)])) = ev b (set_nums c sv (bump j xs))).
  { intros b. rewrite (bump_set_nth search sv Hle) by lia. apply Hag; [apply shifted_context; auto; now apply nth_error_nth'|].
    rewrite set_nums_distinct by (try assumption; now rewrite set_nth_length). reflexivity. }
  rewrite Ee in Er. assert (Hb : List.length (bump j xs) = n) by now rewrite bump_length.
  assert (W : forall t, goes_wrong (fun b c r => ev b c = r) (set_nums c sv (bump j xs)) e (as_res t) -> wrong_at search t) by (intros t Hw; exists (bump j xs), e; auto).
  destruct (ev (sub e) (set_nums c sv (bump j xs))) as [[|v rest]|x| |] eqn:E; cbn [bind idx nth_error unwrap] in Er.
  - subst r. split; [discriminate|]. intros t [= <-]. apply W. now apply gw_no_value.
  - destruct v as [m|w|y].
    + rewrite Hquot2 in Er by discriminate. subst r. cbn. split; [discriminate|]. intros t [= <-]. apply W. eapply (gw_no_number_error _ _ _ (Matrix m)); eauto. discriminate.
    + rewrite Hquot2 in Er by discriminate. subst r. cbn. split; [discriminate|]. intros t [= <-]. apply W. eapply (gw_no_number_error _ _ _ (Vector w)); eauto. discriminate.
    + split; [intros _ _; exists y, rest; exact E|]. rewrite Hquot in Er. subst r. cbn. discriminate.
  - subst r. split; [discriminate|]. intros t [= <-]. apply W. now apply gw_error.
  - subst r. split; [discriminate|]. intros t [= <-]. apply W. now apply gw_panic.
  - subst r. split; discriminate.
Qed.

Lemma seq_rows {E A} (f : nat -> res E A) m l k r : mapM f (seq 0 m) = Ok l -> nth_error l k = Some r -> f k = Ok r.
Proof.
  intros H. apply mapM_ok_iff in H. revert H. change k with (0 + k) at 2. generalize 0 as s. revert l k.
  induction m as [|m IH]; intros l k s H Hk; inversion H; subst; [destruct k; discriminate|].
  destruct k as [|k]; cbn in Hk; [injection Hk as <-; now rewrite Nat.add_0_r|]. rewrite <- Nat.add_succ_comm. eapply IH; eauto.
Qed.

Lemma jacobi_wrong xs rs t : List.length xs = n -> List.length rs = n -> tag (jacobi_and_gauss ev es (pvars sv xs) c rs) = Some t ->
  wrong_at search t \/ exists cols, columns (ev_miss ev) search sv c xs cols.
Proof.
  intros Hl Hr H. assert (Hes : List.length es = n) by now rewrite map_length.
  assert (Hidx : forall i, i < n -> @idx EvalError _ es i = Ok (sub (nth i search (AList [], AList [])))).
  { intros i Hi. unfold idx. rewrite nth_error_map, (nth_error_nth' search (AList [], AList [])) by lia. reflexivity. }
  unfold jacobi_and_gauss in H. rewrite (pvars_length sv xs Hl), Hes in H. apply tag_bind in H as [H|(jac & Hj & _)].
  - left. apply tag_mapM in H as (i & Hi & H). apply in_seq in Hi. rewrite Hidx in H by lia. cbn [bind] in H.
    apply tag_bind in H as [H|(row & _ & H)]; [|discriminate]. apply tag_mapM in H as (j & Hj & H). apply in_seq in Hj.
    eapply (cell xs rs i j _ Hl Hr); [lia|lia|reflexivity|exact H].
  - right. assert (Hel : forall j e, j < n -> In e search -> exists y, ev_miss ev (set_nums c sv (bump j xs)) e y).
    { intros j e Hjn He. apply (In_nth _ _ (AList [], AList [])) in He as (i & Hi & <-).
      destruct (nth_error jac i) as [row|] eqn:Er.
      2:{ apply nth_error_None in Er. apply mapM_length in Hj. rewrite seq_length in Hj. lia. }
      pose proof (seq_rows _ _ _ _ _ Hj Er) as Hi'. cbv beta in Hi'. rewrite Hidx in Hi' by lia. cbn [bind] in Hi'.
      apply bind_ok in Hi' as (row' & Hrow & Hi'). apply ok_inj in Hi' as <-.
      destruct (nth_error row' j) as [y|] eqn:Ey.
      2:{ apply nth_error_None in Ey. apply mapM_length in Hrow. rewrite seq_length in Hrow. lia. }
      pose proof (seq_rows _ _ _ _ _ Hrow Ey) as Hy. cbv beta in Hy.
      eapply (cell xs rs i j _ Hl Hr); [lia|lia|reflexivity|exact Hy]. }
    destruct (Forall2_ex (fun j col => residuals (ev_miss ev) sv c search (bump j xs) col) (seq 0 n)) as [cols Hc].
    { apply Forall_forall. intros j Hin. apply in_seq in Hin. unfold residuals. apply Forall2_ex. apply Forall_forall. intros e He. apply Hel; [lia|exact He]. }
    exists cols. split; [now rewrite <- (Forall2_length Hc), seq_length|]. intros j col Hjc.
    destruct (EvalProofs.Forall2_nth_r _ _ _ _ _ Hc Hjc) as (j' & Hj' & Hres).
    assert (j < n). { rewrite <- (seq_length n 0). apply nth_error_Some. congruence. }
    rewrite (nth_error_nth' _ 0) in Hj' by now rewrite seq_length. rewrite seq_nth in Hj' by assumption. injection Hj' as <-. exact Hres.
Qed.

Lemma loop_wrong m xs t : List.length xs = n -> tag (newton_loop ev m es ks (pvars sv xs) c) = Some t -> wrong_at (search ++ check) t.
Proof.
  assert (Wi : forall l t, incl l (search ++ check) -> wrong_at l t -> wrong_at (search ++ check) t).
  { intros l t0 Hi (ys & e & H1 & H2 & H3). exists ys, e. auto. }
  revert xs. induction m as [|m IH]; intros xs Hl H; cbn [newton_loop] in H; [discriminate|].
  assert (Hsig : forall r : res EvalError NewtonReturn * Ctx N, newton ev es ks (pvars sv xs) c = r -> tag (fst r) <> None -> tag (fst r) = Some t \/ (exists e, fst r = Err e /\ internal e)).
  { intros [r0 c'] Er Hr. rewrite Er in H. destruct r0 as [[x'|x']|e| |]; cbn in Hr; try contradiction; cbn [fst].
    - destruct e; cbn in H; try (left; exact H); right; eexists; (split; [reflexivity|]); unfold internal; auto.
    - now left. }
  destruct (mapM (eval_scalar ev (set_nums c sv xs)) es) as [rs|e| |] eqn:Hr.
  2,3: (assert (Hr2 : tag (fst (newton ev es ks (pvars sv xs) c)) = tag (mapM (eval_scalar ev (set_nums c sv xs)) es))
         by (rewrite Hr; unfold newton; rewrite <- set_nums_add_all, Hr; reflexivity)).
  2:{ destruct (Hsig _ eq_refl) as [E|(e' & E & Hi)].
      - rewrite Hr2, Hr. discriminate.
      - apply (Wi search); [apply incl_appl, incl_refl|]. rewrite Hr2 in E. now apply (eval_scalar_wrong xs).
      - exfalso. rewrite E, Hr in Hr2. injection Hr2 as ->. apply mapM_err_iff in Hr as (? & b & ? & ? & _ & _ & Hb).
        unfold eval_scalar in Hb. apply bind_err in Hb as [Hb|(vs & _ & Hb)]; [exact (Hint _ _ _ Hb Hi)|].
        apply bind_err in Hb as [Hb|(v & _ & Hb)]; [destruct vs; discriminate|]. destruct (get_scalar v); discriminate. }
  2:{ destruct (Hsig _ eq_refl) as [E|(e' & E & Hi)].
      - rewrite Hr2, Hr. discriminate.
      - apply (Wi search); [apply incl_appl, incl_refl|]. rewrite Hr2 in E. now apply (eval_scalar_wrong xs).
      - exfalso. rewrite E, Hr in Hr2. discriminate. }
  2:{ exfalso. unfold newton in H. rewrite <- set_nums_add_all, Hr in H. discriminate. }
  pose proof Hr as Hrm. apply residuals_mapM in Hr. destruct (tiny rs) eqn:Ht.
  - assert (Hr2 : mapM (eval_scalar ev (set_nums c sv xs)) ks = Fuel \/ tag (mapM (eval_scalar ev (set_nums c sv xs)) ks) <> None \/ exists ks', mapM (eval_scalar ev (set_nums c sv xs)) ks = Ok ks').
    { destruct (mapM (eval_scalar ev (set_nums c sv xs)) ks); cbn; eauto; right; left; discriminate. }
    destruct Hr2 as [Hk|[Hk|[ks' Hk]]].
    + exfalso. unfold newton in H. rewrite <- set_nums_add_all, Hrm in H. change (small rs) with (tiny rs) in H.
      rewrite Ht, set_nums_add_all, remove_restores in H by assumption. rewrite <- set_nums_add_all, Hk in H. discriminate.
    + assert (E2 : tag (fst (newton ev es ks (pvars sv xs) c)) = tag (mapM (eval_scalar ev (set_nums c sv xs)) ks)).
      { unfold newton. rewrite <- set_nums_add_all, Hrm. change (small rs) with (tiny rs).
        rewrite Ht, set_nums_add_all, remove_restores by assumption. rewrite <- set_nums_add_all.
        destruct (mapM (eval_scalar ev (set_nums c sv xs)) ks); cbn in Hk |- *; congruence. }
      destruct (Hsig _ eq_refl) as [E|(e' & E & Hi)]; [congruence| |].
      * apply (Wi check); [apply incl_appr, incl_refl|]. apply (eval_scalar_wrong xs); congruence.
      * exfalso. rewrite E in E2. cbn in E2. destruct (mapM (eval_scalar ev (set_nums c sv xs)) ks) as [|e2| |] eqn:Hk2; try discriminate. injection E2 as ->.
        apply mapM_err_iff in Hk2 as (? & b & ? & ? & _ & _ & Hb).
        unfold eval_scalar in Hb. apply bind_err in Hb as [Hb|(vs & _ & Hb)]; [exact (Hint _ _ _ Hb Hi)|].
        apply bind_err in Hb as [Hb|(v & _ & Hb)]; [destruct vs; discriminate|]. destruct (get_scalar v); discriminate.
    + exfalso. apply residuals_mapM in Hk. rewrite (newton_near ev search check sv c Hd xs rs ks' Hl Hr Ht Hk) in H.
      assert (G : tag (do rs0 <- mapM first_scalar (pvars sv xs); match rs0 with [s] => @Ok EvalError _ (@Some V (Scalar s), false, c) | _ => Ok (Some (Vector rs0), false, c) end) = None).
      { rewrite pvars_scalars by exact Hl. cbn [bind]. destruct xs as [|x [|? ?]]; reflexivity. }
      destruct ks' as [|k0 ks']; [congruence|]. destruct (tiny (k0 :: ks')); [congruence|discriminate].
  - pose proof (residuals_length ev sv c _ _ _ Hr) as Hrl. rewrite Hle in Hrl.
    destruct (jacobi_and_gauss ev es (pvars sv xs) c rs) as [new_x|e| |] eqn:J.
    + assert (Hq3 : forall v y0 c0 vs, ev (quotient_ast v (Scalar y0)) c0 = Ok vs -> exists y, v = Scalar y).
      { intros [w|w|y] y0 c0 vs Hv; [rewrite Hquot2 in Hv by discriminate; discriminate|rewrite Hquot2 in Hv by discriminate; discriminate|eauto]. }
      destruct (jacobi_no_columns ev Hag Hq3 Hint search sv c Hnd Hd Hle xs rs Hl Hrl) as [(cols & Hc)|Hno].
      2:{ exfalso. destruct Hno as [(e & E & _)|[E|E]]; congruence. }
      rewrite (newton_far ev Hag Hquot search check sv c Hnd Hd Hle xs rs cols Hl Hr Ht Hc) in H.
      destruct (gauss_algorithm (newton_rows rs cols)) as [d|e| |] eqn:G.
      * destruct (forallb finite (moved d xs)) eqn:Hfin; [|discriminate].
        apply (IH (moved d xs)); [|exact H]. apply (moved_length search sv Hle); [|exact Hl]. rewrite (gauss_length _ _ G), newton_rows_length. exact Hrl.
      * exfalso. rewrite (jacobi_columns ev Hag Hquot search sv c Hnd Hd Hle xs rs cols Hl Hrl Hc), G in J. discriminate.
      * exfalso. rewrite (jacobi_columns ev Hag Hquot search sv c Hnd Hd Hle xs rs cols Hl Hrl Hc), G in J. discriminate.
      * discriminate.
    + assert (Jt : tag (jacobi_and_gauss ev es (pvars sv xs) c rs) = Some (Some e)) by (rewrite J; reflexivity).
      assert (E2 : fst (newton ev es ks (pvars sv xs) c) = Err e).
      { unfold newton. rewrite <- set_nums_add_all, Hrm. change (small rs) with (tiny rs).
        rewrite Ht, set_nums_add_all, remove_restores, J by assumption. reflexivity. }
      destruct (jacobi_wrong xs rs _ Hl Hrl Jt) as [W|(cols & Hc)].
      * destruct (Hsig _ eq_refl) as [E|(e' & E & Hi)]; [rewrite E2; discriminate| |].
        -- apply (Wi search); [apply incl_appl, incl_refl|]. rewrite E2 in E. injection E as <-. exact W.
        -- exfalso. rewrite E2 in E. injection E as ->. destruct W as (ys & q & _ & _ & Hw). unfold as_res in Hw. inversion Hw; subst.
           ++ eapply Hint; eauto.
           ++ unfold internal in Hi. decompose [or] Hi; discriminate.
      * exfalso. rewrite (jacobi_columns ev Hag Hquot search sv c Hnd Hd Hle xs rs cols Hl Hrl Hc) in J.
        pose proof (newton_rows_shape rs cols) as Hsh. rewrite (proj1 Hc), Hl, Hrl in Hsh.
        destruct (gauss_total (newton_rows rs cols) n) as [[d Hg]|Hg]; [destruct sv; [contradiction|cbn; lia]|exact Hsh| |]; rewrite Hg in J; [discriminate|].
        cbn in J. injection J as <-. destruct (newton ev es ks (pvars sv xs) c) as [r1 c1]. cbn in E2. subst r1. discriminate.
    + assert (Jt : tag (jacobi_and_gauss ev es (pvars sv xs) c rs) = Some None) by (rewrite J; reflexivity).
      assert (E2 : fst (newton ev es ks (pvars sv xs) c) = Panic).
      { unfold newton. rewrite <- set_nums_add_all, Hrm. change (small rs) with (tiny rs).
        rewrite Ht, set_nums_add_all, remove_restores, J by assumption. reflexivity. }
      destruct (jacobi_wrong xs rs _ Hl Hrl Jt) as [W|(cols & Hc)].
      * destruct (Hsig _ eq_refl) as [E|(e' & E & Hi)]; [rewrite E2; discriminate| |rewrite E2 in E; discriminate].
        apply (Wi search); [apply incl_appl, incl_refl|]. rewrite E2 in E. injection E as <-. exact W.
      * exfalso. rewrite (jacobi_columns ev Hag Hquot search sv c Hnd Hd Hle xs rs cols Hl Hrl Hc) in J.
        pose proof (newton_rows_shape rs cols) as Hsh. rewrite (proj1 Hc), Hl, Hrl in Hsh.
        destruct (gauss_total (newton_rows rs cols) n) as [[d Hg]|Hg]; [destruct sv; [contradiction|cbn; lia]|exact Hsh| |]; rewrite Hg in J; discriminate.
    + exfalso. unfold newton in H. rewrite <- set_nums_add_all, Hrm in H. change (small rs) with (tiny rs) in H.
      rewrite Ht, set_nums_add_all, remove_restores, J in H by assumption. discriminate.
Qed.

Lemma quot_scalar v y0 c0 vs : ev (quotient_ast v (Scalar y0)) c0 = Ok vs -> exists y, v = Scalar y.
Proof. destruct v as [w|w|y]; intros Hv; [rewrite Hquot2 in Hv by discriminate; discriminate|rewrite Hquot2 in Hv by discriminate; discriminate|eauto]. Qed.
Lemma start_wrong js acc t : tag (start_loop ev js es ks sv c acc) = Some t -> wrong_at (search ++ check) t.
Proof.
  revert acc. induction js as [|j js IH]; intros acc H; cbn [start_loop] in H; [discriminate|].
  rewrite pvars_start in H. apply tag_bind in H as [H|([[ov b] c'] & Hl & H)].
  - eapply loop_wrong; [|exact H]. now rewrite repeat_length.
  - apply (run_of_loop ev Hag Hquot quot_scalar Hint search check sv c Hnd Hd Hle) in Hl as (-> & e & Ec & Hr); [|now rewrite repeat_length].
    destruct b; [discriminate|]. destruct ov; eapply IH; exact H.
Qed.
End Faults.

Section Binary64.
Variable lm : Libm.
Local Instance NF : Num := F64 lm.
Context {En : Env}.
Notation V := (Value NF).
Notation equation := (AST NF * AST NF)%type.

Lemma eval_quot_message f (v : V) y0 c : 4 <= f -> (forall s, v <> Scalar s) -> eval f (quotient_ast v (Scalar y0)) c = Err (MathError (shape_message v)).
Proof.
  intros Hf Hv.
  assert (Ho : outcome (quotient_ast v (Scalar y0)) c (Err (MathError (shape_message v)))).
  { assert (E : mathe (rmap (fun v => [v]) (quotient v (Scalar y0))) = Err (MathError (shape_message v))).
    { destruct v as [m|w|s]; [reflexivity|reflexivity|exfalso; now apply (Hv s)]. }
    rewrite <- E. apply quotient_outcome. unfold quotient. destruct v; try discriminate. }
  pose proof (quotient_nofuel f v (Scalar y0) c [] Hf) as Hn. fold (eval f (quotient_ast v (Scalar y0)) c) in Hn.
  assert (Hn' : eval f (quotient_ast v (Scalar y0)) c <> Fuel) by (intros E; rewrite E in Hn; exact Hn).
  pose proof (outcome_intro _ _ _ _ eq_refl Hn') as Hx. exact (outcome_unique _ _ _ _ Hx Ho).
Qed.

Lemma wrong_outcome f c (e : equation) r : goes_wrong (fun b c r => eval f b c = r) c e r -> goes_wrong outcome c e r.
Proof.
  intros H. assert (G : forall b r, eval f b c = r -> r <> Fuel -> outcome b c r) by (intros b r0 H0 H1; eapply outcome_intro; eauto).
  inversion H; subst; [apply gw_error|apply gw_panic|apply gw_no_value|eapply gw_no_number|eapply gw_no_number_error]; eauto; apply G; eauto; discriminate.
Qed.

Lemma loops_wrong_js js f (eqs : list equation) sv c l t : NoDup sv -> sv <> [] -> undefined c sv -> 4 <= f -> is_choice (List.length sv) (List.length eqs) l ->
  tag (loops_js js f eqs sv c l) = Some t -> wrong_at (eval f) sv c eqs t.
Proof.
  intros Hnd Hne Hd Hf (Hl1 & Hl2 & Hl3) H. unfold loops_js in H. rewrite split_picked in H by (try assumption; now rewrite map_length).
  cbn [bind fst snd] in H. rewrite !picked_map in H.
  apply (start_wrong (eval f) (eval_named f) (fun y y0 c => eval_quot f y y0 c Hf) (fun v y0 c => eval_quot_message f v y0 c Hf) (eval_not_internal f)) in H; auto.
  - destruct H as (xs & e & H1 & H2 & H3). exists xs, e. split; [exact H1|]. split; [|exact H3].
    apply in_app_iff in H2 as [H2|H2]; eapply picked_incl; exact H2.
  - now rewrite picked_length.
Qed.

Lemma loops_wrong f (eqs : list equation) sv c l t : NoDup sv -> sv <> [] -> undefined c sv -> 4 <= f -> is_choice (List.length sv) (List.length eqs) l ->
  tag (loops f eqs sv c l) = Some t -> wrong_at (eval f) sv c eqs t.
Proof. exact (loops_wrong_js starts f eqs sv c l t). Qed.

(** ** C83 *)
(** The errors eq reports before it searches. *)
Inductive refused (eqs : list equation) (sv : list str) (c : Ctx NF) : EvalError -> Prop :=
| no_equation : eqs = [] -> refused eqs sv c NothingToDoEq
| unknown_defined : defined c sv -> refused eqs sv c SearchVarsInVars
| too_few_equations : List.length eqs < List.length sv -> refused eqs sv c UnderdeterminedSystem
| vector_equation e w rest : nth_error eqs 0 = Some e -> outcome (difference e) (probe_context c sv) (Ok (Vector w :: rest)) -> refused eqs sv c VectorInEq
| matrix_equation e m rest : nth_error eqs 0 = Some e -> outcome (difference e) (probe_context c sv) (Ok (Matrix m :: rest)) -> refused eqs sv c MatrixInEq.
(** Some equation goes wrong somewhere. *)
Definition some_equation_goes_wrong (eqs : list equation) (sv : list str) (c : Ctx NF) (r : res EvalError (list V)) : Prop :=
  exists xs e, List.length xs = List.length sv /\ In e eqs /\ goes_wrong outcome (set_nums c sv xs) e r.

Lemma clean_fine (eqs : list equation) sv c l found : sv <> [] -> is_choice (List.length sv) (List.length eqs) l -> finds eqs sv c l found ->
  exists vs, clean_results found = Ok vs.
Proof.
  intros Hsv Hc Hf. pose proof (finds_fine lm _ _ _ _ _ Hc Hf) as Hfine. rewrite Forall_forall in Hfine.
  destruct (clean_total found) as (vs & Hcl & Hvs); [| |eauto].
  { intros v Hv. destruct (Hfine v Hv) as (xs & -> & Hx & Hxl). destruct xs as [|x xs]; [destruct sv; [contradiction|discriminate]|].
    cbn [forallb] in Hx. apply andb_true_iff in Hx as [Hx _]. exists x. split; [destruct xs; reflexivity|].
    unfold finite in Hx. apply negb_true_iff, orb_false_iff in Hx as [_ Hx]. split; [exact Hx|]. destruct x as [| | |]; try reflexivity. discriminate Hx. }
  { destruct sv as [|n1 [|n2 sv']]; [contradiction|left|right]; intros v Hv; destruct (Hfine v Hv) as (xs & -> & _ & Hxl).
    - destruct xs as [|x [|y xs]]; try discriminate. eexists; reflexivity.
    - destruct xs as [|x [|y xs]]; try discriminate. eexists; reflexivity. }
Qed.

Lemma combs_wrong f (eqs : list equation) sv c ls t : NoDup sv -> sv <> [] -> undefined c sv -> 4 <= f ->
  (forall l, In l ls -> is_choice (List.length sv) (List.length eqs) l) ->
  tag (comb_loop (eval f) ls (map (fun i => AOp OSub (fst i) (snd i)) eqs) c sv) = Some t -> wrong_at (eval f) sv c eqs t.
Proof.
  intros Hnd Hne Hd Hf. induction ls as [|l ls IH]; intros Hc H; [discriminate|]. assert (Hl := Hc l (or_introl eq_refl)).
  rewrite comb_loop_step in H by exact Hl. apply tag_bind in H as [H|(found & Hfo & H)]; [exact (loops_wrong f eqs sv c l t Hnd Hne Hd Hf Hl H)|].
  apply (loops_finds f eqs sv c l found Hnd Hd Hf Hl) in Hfo. destruct (clean_fine _ _ _ _ _ Hne Hl Hfo) as [vs E]. rewrite E in H. cbn [bind] in H.
  destruct vs; [|discriminate]. apply IH; [intros; apply Hc; now right|exact H].
Qed.

Lemma faults (eqs : list equation) sv c r t : NoDup sv -> sv <> [] -> outcome (AEq eqs sv) c r -> tag r = Some t ->
  (exists x, t = Some x /\ refused eqs sv c x) \/ some_equation_goes_wrong eqs sv c (as_res t).
Proof.
  intros Hnd Hne H Ht. apply c39_solve_is_eq in H as [_ [f0 H]]. specialize (H (max 4 f0) ltac:(lia)).
  assert (Hf : 4 <= max 4 f0) by lia. set (f := max 4 f0) in *. clearbody f.
  destruct eqs as [|e0 eqs].
  { left. unfold solve, rf_new in H. cbn in H. subst r. injection Ht as <-. eexists; split; [reflexivity|]. now apply no_equation. }
  destruct (existsb (fun n => existsb (fun v => str_eqb (var_name v) n) (vars c)) sv) eqn:Ed.
  { left. apply defined_spec in Ed. pose proof (c35_defined_variable (e0 :: eqs) sv c ltac:(discriminate) Ed) as Ho.
    assert (Hr : outcome (AEq (e0 :: eqs) sv) c r) by (apply (solve_outcome _ _ _ _ f); [exact H|destruct r; discriminate]).
    rewrite (outcome_unique _ _ _ _ Hr Ho) in Ht. injection Ht as <-. eexists; split; [reflexivity|]. now apply unknown_defined. }
  assert (Hdf : ~ defined c sv) by (intros D; apply defined_spec in D; congruence).
  assert (Hd : undefined c sv) by (intros n v Hn Hv E; apply Hdf; exists n, v; auto).
  destruct (Nat.le_gt_cases (List.length sv) (List.length (e0 :: eqs))) as [Hl|Hl].
  2:{ left. pose proof (c35_underdetermined (e0 :: eqs) sv c ltac:(discriminate) Hdf Hl) as Ho.
    assert (Hr : outcome (AEq (e0 :: eqs) sv) c r) by (apply (solve_outcome _ _ _ _ f); [exact H|destruct r; discriminate]).
    rewrite (outcome_unique _ _ _ _ Hr Ho) in Ht. injection Ht as <-. eexists; split; [reflexivity|]. now apply too_few_equations. }
  destruct e0 as [a b].
  assert (Hr : outcome (AEq ((a, b) :: eqs) sv) c r) by (apply (solve_outcome _ _ _ _ f); [exact H|destruct r; discriminate]).
  assert (W : forall r', outcome (AOp OSub a b) (probe_context c sv) r' -> (forall vs s rest, r' = Ok vs -> vs <> Scalar s :: rest) ->
    r = (do vs <- r'; do v <- idx vs 0; match v with Vector _ => Err VectorInEq | Matrix _ => Err MatrixInEq | Scalar _ => Ok [] end)).
  { intros r' H1 H2. exact (outcome_unique _ _ _ _ Hr (first_equation a b eqs sv c r' Hdf Hl H1 H2)). }
  assert (P : forall r', goes_wrong outcome (probe_context c sv) (a, b) r' -> some_equation_goes_wrong ((a, b) :: eqs) sv c r').
  { intros r' Hw. exists (repeat nprobe (List.length sv)), (a, b). split; [apply repeat_length|]. split; [now left|exact Hw]. }
  destruct (eval f (AOp OSub a b) (probe_context c sv)) as [[|[m|w|s] rest]|x| |] eqn:E.
  - assert (Ho : outcome (AOp OSub a b) (probe_context c sv) (Ok [])) by (eapply outcome_intro; [exact E|discriminate]).
    rewrite (W _ Ho) in Ht by congruence. injection Ht as <-. right. apply P. now apply gw_no_value.
  - assert (Ho : outcome (AOp OSub a b) (probe_context c sv) (Ok (Matrix m :: rest))) by (eapply outcome_intro; [exact E|discriminate]).
    rewrite (W _ Ho) in Ht by congruence. injection Ht as <-. left. eexists; split; [reflexivity|]. eapply matrix_equation; [reflexivity|exact Ho].
  - assert (Ho : outcome (AOp OSub a b) (probe_context c sv) (Ok (Vector w :: rest))) by (eapply outcome_intro; [exact E|discriminate]).
    rewrite (W _ Ho) in Ht by congruence. injection Ht as <-. left. eexists; split; [reflexivity|]. eapply vector_equation; [reflexivity|exact Ho].
  - right. rewrite (solve_general f _ sv c (a, b) eqs s rest eq_refl Hd Hl E) in H. subst r.
    apply combs_wrong in Ht; auto; [|intros l; now apply choices_spec].
    destruct Ht as (xs & e & H1 & H2 & H3). exists xs, e. split; [exact H1|]. split; [exact H2|]. eapply wrong_outcome; exact H3.
  - assert (Ho : outcome (AOp OSub a b) (probe_context c sv) (Err x)) by (eapply outcome_intro; [exact E|discriminate]).
    rewrite (W _ Ho) in Ht by congruence. injection Ht as <-. right. apply P. now apply gw_error.
  - assert (Ho : outcome (AOp OSub a b) (probe_context c sv) Panic) by (eapply outcome_intro; [exact E|discriminate]).
    rewrite (W _ Ho) in Ht by congruence. injection Ht as <-. right. apply P. now apply gw_panic.
  - exfalso. unfold solve, rf_new in H. pose proof (all_operations ((a, b) :: eqs)) as Ho. cbn [map] in *. rewrite Ho in H. cbn [negb] in H.
    rewrite Ed in H. destruct (Nat.ltb_spec (List.length (AOp OSub (fst (a, b)) (snd (a, b)) :: map (fun i => AOp OSub (fst i) (snd i)) eqs)) (List.length sv)) as [H'|H'].
    { cbn in *. rewrite map_length in H'. lia. }
    rewrite probe_context_eq in H. cbn [fst snd] in H. rewrite E in H. cbn [bind] in H. subst r. discriminate.
Qed.

(** An error of eq is one of its own refusals, or an equation has this error (or
    is not about numbers) at some point. *)
Theorem c83_errors (eqs : list equation) sv c x : NoDup sv -> sv <> [] -> outcome (AEq eqs sv) c (Err x) ->
  refused eqs sv c x \/ some_equation_goes_wrong eqs sv c (Err x).
Proof.
  intros Hnd Hne H. destruct (faults eqs sv c _ (Some x) Hnd Hne H eq_refl) as [(y & E & R)|W]; [left; now injection E as ->|now right].
Qed.
(** A panic of eq is a panic of an equation, or an equation without a value or
    with something else than a number. *)
Theorem c83_panics (eqs : list equation) sv c : NoDup sv -> sv <> [] -> outcome (AEq eqs sv) c Panic ->
  some_equation_goes_wrong eqs sv c Panic.
Proof.
  intros Hnd Hne H. destruct (faults eqs sv c _ None Hnd Hne H eq_refl) as [(y & E & R)|W]; [discriminate|exact W].
Qed.
End Binary64.

Module Examples.
Local Existing Instance NT.
Local Existing Instance ET.
Definition ctx0 : Ctx NT := mkCtx [] [].
Definition X := lit "x".
Definition k (z : Z) : AST NT := AScalar (num z).
Definition x1000 : AST NT := AOp OAdd (AVar X) (k 1000).
(** [eq(x + 1000 = 0, a = 0, x)]: the first equation is solved; checking the
    second one, the undefined [a] is found. *)
Definition with_a : list (AST NT * AST NT) := [(x1000, k 0); (AVar (lit "a"), k 0)].
Lemma with_a_fails : outcome (AEq with_a [X]) ctx0 (Err (NoVariable (lit "a"))).
Proof. apply (outcome_intro 20); [apply err_of_eq; vm_compute; reflexivity|discriminate]. Qed.
Lemma X_distinct : NoDup [X].
Proof. repeat constructor; intros []. Qed.
Example c83_error_case : refused toy with_a [X] ctx0 (NoVariable (lit "a")) \/ some_equation_goes_wrong toy with_a [X] ctx0 (Err (NoVariable (lit "a"))).
Proof. apply (c83_errors toy with_a [X] ctx0 _ X_distinct); [discriminate|exact with_a_fails]. Qed.
Example c83_error_not_refused : ~ refused toy with_a [X] ctx0 (NoVariable (lit "a")).
Proof. intros H. inversion H. Qed.
(** A vector in a later equation. *)
Definition with_vector : list (AST NT * AST NT) := [(x1000, k 0); (AVector [k 1; k 2], AVector [k 1; k 2])].
Lemma with_vector_panics : outcome (AEq with_vector [X]) ctx0 Panic.
Proof. apply (outcome_intro 20); [apply is_panic_eq; vm_compute; reflexivity|discriminate]. Qed.
Example c83_panic_case : some_equation_goes_wrong toy with_vector [X] ctx0 Panic.
Proof. apply (c83_panics toy with_vector [X] ctx0 X_distinct); [discriminate|exact with_vector_panics]. Qed.
End Examples.
