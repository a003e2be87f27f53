(** * Search: the model's Newton loops do what [SearchSpec] says. *)
From Coq Require Import List NArith ZArith Bool Lia Arith.
From Verif Require Import Base BaseFacts F64 Num Types Maths Helpers Parser Eval EvalFuel SpecEval
  EvalProofs EvalTotal ContextProofs GrammarSpec MathsForms CalcSpec SolveSpec SolveProofs SolveProofs2 PropSolve SolveForward SearchSpec.
Import ListNotations.

(** ** Elimination keeps the number of rows. *)
Lemma foldM_inv {E A S} (P : S -> Prop) (f : S -> A -> res E S) l s r :
  (forall s a s', P s -> f s a = Ok s' -> P s') -> P s -> foldM f l s = Ok r -> P r.
Proof.
  intros Hf. revert s. induction l as [|a l IH]; intros s Hs H; cbn in H; [now injection H as <-|].
  apply bind_ok in H as (s' & H1 & H2). eapply IH; [|exact H2]. eauto.
Qed.
Lemma eliminate_length {N : Num} {E} (z : E) (v w : list (list T)) : eliminate z v = Ok w -> List.length w = List.length v.
Proof.
  unfold eliminate. intros H. revert H. apply (foldM_inv (fun w => List.length w = List.length v)); [|reflexivity].
  intros s i s' Hs H. revert H. apply (foldM_inv (fun w => List.length w = List.length v)); [|exact Hs].
  intros t j t' Ht H. apply bind_ok in H as (vi & _ & H). apply bind_ok in H as (vj & _ & H). apply bind_ok in H as (rz & _ & H).
  destruct (snd rz); [discriminate|]. injection H as <-. now rewrite set_nth_length.
Qed.
Lemma gauss_length {N : Num} {En : Env} (v : list (list T)) d : gauss_algorithm v = Ok d -> List.length d = List.length v.
Proof.
  unfold gauss_algorithm. intros H. apply bind_ok in H as (c & _ & H). destruct (negb _); [discriminate|].
  apply bind_ok in H as (v1 & H1 & H). apply bind_ok in H as (v2 & H2 & H). apply bind_ok in H as (r & H3 & H). injection H as <-.
  rewrite rev_length, (mapM_length _ _ _ H3), seq_length, (eliminate_length _ _ _ H2).
  unfold flip. now rewrite map_length, rev_length, (eliminate_length _ _ _ H1).
Qed.

Lemma elim_row_no_err {N : Num} {E} i (vi vj : list T) (e : E) : elim_row i vi vj <> Err e.
Proof.
  intros H. unfold elim_row in H. assert (Hi : forall A (l : list A) k, idx l k <> Err e) by (intros A l k; unfold idx; destruct (nth_error l k); discriminate).
  apply bind_err in H as [H|(p & _ & H)]; [now apply Hi in H|]. apply bind_err in H as [H|(q & _ & H)]; [now apply Hi in H|].
  apply bind_err in H as [H|(t & _ & H)]; [|discriminate]. apply mapM_err_iff in H as (l1 & k & l2 & ys & _ & _ & H).
  apply bind_err in H as [H|(z & _ & H)]; [now apply Hi in H|]. apply bind_err in H as [H|(y & _ & H)]; [now apply Hi in H|]. discriminate.
Qed.

Section Search.
Context {N : Num} {En : Env}.
Notation V := (Value N).
Notation equation := (AST N * AST N)%type.
Notation sub e := (AOp OSub (fst e) (snd e)).
Variable ev : AST N -> Ctx N -> res EvalError (list V).
Hypothesis Hag : forall b c1 c2, (forall n, named n (vars c1) = named n (vars c2)) -> funs c1 = funs c2 -> ev b c1 = ev b c2.
Hypothesis Hquot : forall y y0 c, ev (quotient_ast (Scalar y) (Scalar y0)) c =
  Ok [Scalar (ndiv (nadd y (nmul y0 nm1)) step_h)].
Hypothesis Hquot2 : forall v y0 c vs, ev (quotient_ast v (Scalar y0)) c = Ok vs -> exists y, v = Scalar y.
Hypothesis Hint : forall b c e, ev b c = Err e -> ~ internal e.
Variables (search check : list equation) (sv : list str) (c : Ctx N).
Hypothesis Hnd : NoDup sv.
Hypothesis Hd : undefined c sv.
Hypothesis Hle : List.length search = List.length sv.
Notation es := (map (fun i => sub i) search).
Notation ks := (map (fun i => sub i) check).
Notation n := (List.length sv).

Definition ev_miss (c : Ctx N) (e : equation) (s : T) : Prop := exists rest, ev (sub e) c = Ok (Scalar s :: rest).

Lemma es_len : List.length es = n. Proof. now rewrite map_length. Qed.

Lemma residuals_values xs fx : residuals ev_miss sv c search xs fx <-> values_at ev es sv c xs fx.
Proof.
  unfold residuals, values_at, ev_miss. clear Hle. split; intros H.
  - induction H; cbn [map]; constructor; auto.
  - revert fx H. induction search as [|e l IH]; intros fx H; cbn [map] in H; inversion H; subst; constructor; auto.
Qed.
Lemma residuals_mapM eqs xs fx : residuals ev_miss sv c eqs xs fx <->
  mapM (eval_scalar ev (set_nums c sv xs)) (map (fun i => sub i) eqs) = Ok fx.
Proof.
  unfold residuals. rewrite mapM_map, mapM_ok_iff. split; intros H; (eapply Forall2_impl; [|exact H]); cbn; intros a b Hab; now apply eval_scalar_ok.
Qed.
Lemma bump_set_nth j (xs : list T) : j < List.length xs -> bump j xs = set_nth xs j (nadd (com xs j) step_h).
Proof.
  intros H. rewrite set_nth_split by exact H. unfold bump, com. f_equal.
  revert j H. induction xs as [|x xs IH]; intros [|j] H; cbn in *; try lia; [reflexivity|]. apply IH. lia.
Qed.

Lemma columns_values xs cols : List.length xs = n -> columns ev_miss search sv c xs cols ->
  forall j, j < n -> values_at ev es sv c (set_nth xs j (nadd (com xs j) step_h)) (tab n (fun i => nth i (nth j cols []) n0)).
Proof.
  intros Hl [Hc H] j Hj. rewrite <- bump_set_nth by lia. apply residuals_values.
  destruct (nth_error cols j) as [col|] eqn:E; [|apply nth_error_None in E; lia].
  specialize (H j col E). rewrite (nth_error_nth _ _ [] E).
  assert (Hcl : List.length col = n) by (rewrite <- Hle; symmetry; exact (Forall2_length H)).
  rewrite <- Hcl, tab_id. exact H.
Qed.

Lemma seq_combine {A B} (l : list A) (d : A) (f : nat -> A -> B) :
  map (fun p => f (fst p) (snd p)) (combine (seq 0 (List.length l)) l) = tab (List.length l) (fun i => f i (nth i l d)).
Proof.
  revert f. induction l as [|a l IH]; intros f; [reflexivity|].
  unfold tab in *. cbn [List.length seq combine map fst snd nth]. f_equal. rewrite <- seq_shift, map_map.
  rewrite <- (IH (fun i => f (S i))). clear. generalize (seq 0 (List.length l)) as s. revert l.
  induction l as [|b l IH]; intros [|i s]; cbn [combine map]; try reflexivity. f_equal. apply IH.
Qed.
Lemma rows_system xs rs cols : List.length rs = n -> List.length cols = n ->
  newton_rows rs cols = newton_system sv xs rs (fun i j => nth i (nth j cols []) n0).
Proof.
  intros Hr Hc. unfold newton_rows, newton_system.
  rewrite (seq_combine rs n0 (fun i s => map (fun col => ndiv (nadd (nth i col n0) (nmul s nm1)) step_h) cols ++ [nmul nm1 s])).
  rewrite Hr. apply tab_ext. intros i Hi. unfold com. f_equal.
  rewrite <- (tab_id cols []) at 1. rewrite Hc, tab_map. reflexivity.
Qed.
Lemma moved_tab d xs : List.length d = n -> List.length xs = n -> moved d xs = tab n (fun i => nadd (com d i) (com xs i)).
Proof.
  unfold moved. generalize n. clear. intros n. revert d xs. induction n as [|n IH]; intros [|a d] [|x xs] H1 H2; try discriminate; [reflexivity|].
  unfold tab in *. cbn [combine map seq fst snd]. f_equal. rewrite (IH d xs) by (cbn in *; lia). rewrite <- seq_shift, map_map. reflexivity.
Qed.
Lemma newton_rows_length rs cols : List.length (newton_rows rs cols) = List.length rs.
Proof. unfold newton_rows. now rewrite map_length, combine_length, seq_length, Nat.min_id. Qed.

(** What a step computes, if all expressions have values. *)
Lemma jacobi_columns xs rs cols : List.length xs = n -> List.length rs = n -> columns ev_miss search sv c xs cols ->
  jacobi_and_gauss ev es (pvars sv xs) c rs =
  do d <- gauss_algorithm (newton_rows rs cols); Ok (pvars sv (moved d xs)).
Proof.
  intros Hl Hr Hc. pose proof (columns_values xs cols Hl Hc) as Hv.
  rewrite (rows_system xs rs cols Hr) by (rewrite (proj1 Hc); exact Hl).
  destruct (gauss_algorithm (newton_system sv xs rs (fun i j => nth i (nth j cols []) n0))) as [d|e| |] eqn:G.
  - cbn [bind]. rewrite moved_tab.
    + exact (jacobi_forward ev Hag Hquot es sv c Hnd Hd es_len xs rs _ d Hl Hr Hv G (eq_trans (gauss_length _ _ G) (tab_length _ _))).
    + rewrite (gauss_length _ _ G). apply tab_length.
    + exact Hl.
  - rewrite (jacobi_reduces ev Hag Hquot es sv c Hnd Hd es_len xs rs _ Hl Hr Hv), G. reflexivity.
  - rewrite (jacobi_reduces ev Hag Hquot es sv c Hnd Hd es_len xs rs _ Hl Hr Hv), G. reflexivity.
  - rewrite (jacobi_reduces ev Hag Hquot es sv c Hnd Hd es_len xs rs _ Hl Hr Hv), G. reflexivity.
Qed.

(** If they have not, the step ends with an error that is no signal. *)
Lemma jacobi_no_columns xs rs : List.length xs = n -> List.length rs = n ->
  (exists cols, columns ev_miss search sv c xs cols) \/
  (exists e, jacobi_and_gauss ev es (pvars sv xs) c rs = Err e /\ ~ internal e) \/
  jacobi_and_gauss ev es (pvars sv xs) c rs = Panic \/ jacobi_and_gauss ev es (pvars sv xs) c rs = Fuel.
Proof.
  intros Hl Hr.
  assert (Hx : forall j, j < n -> @idx EvalError _ (pvars sv xs) j = Ok (mkVar (nth j sv []) [Scalar (com xs j)])).
  { intros j Hj. unfold idx. rewrite pvars_nth by exact Hl.
    rewrite (nth_error_nth' sv []) by exact Hj. rewrite (nth_error_nth' xs n0) by (rewrite Hl; exact Hj). reflexivity. }
  unfold jacobi_and_gauss. rewrite (pvars_length sv xs Hl), es_len.
  destruct (mapM _ (seq 0 n)) as [jac|e| |] eqn:Hj; cbn [bind]; [|right; left; exists e; split; [reflexivity|]|right; right; now left|right; right; now right].
  - left. apply mapM_ok_iff in Hj.
    assert (Hel : forall i j, i < n -> j < n -> exists y, ev_miss (set_nums c sv (bump j xs)) (nth i search (AList [], AList [])) y).
    { intros i j Hi Hjn.
      destruct (nth_error jac i) as [row|] eqn:Er; [|apply nth_error_None in Er; pose proof (Forall2_length Hj) as HL; rewrite seq_length in HL; lia].
      assert (Hrow : forall (f : nat -> res EvalError (list T)) s m l k r, Forall2 (fun x y => f x = Ok y) (seq s m) l -> nth_error l k = Some r -> f (s + k) = Ok r).
      { clear. intros f s m. revert s. induction m as [|m IH]; intros s l k r H Hk; inversion H; subst; [destruct k; discriminate|].
        destruct k as [|k]; cbn in Hk; [injection Hk as <-; now rewrite Nat.add_0_r|]. rewrite <- Nat.add_succ_comm. eapply IH; eauto. }
      pose proof (Hrow _ _ _ _ _ _ Hj Er) as Hi'. cbn [Nat.add] in Hi'. clear Hrow.
      apply bind_ok in Hi' as (e & He & Hi'). apply bind_ok in Hi' as (row' & Hrow & Hi'). apply ok_inj in Hi' as <-.
      apply idx_ok in He. rewrite nth_error_map in He. rewrite (nth_error_nth' search (AList [], AList [])) in He by lia. cbn in He. injection He as <-.
      apply mapM_ok_iff in Hrow.
      destruct (nth_error row' j) as [y|] eqn:Ey; [|apply nth_error_None in Ey; pose proof (Forall2_length Hrow) as HL; rewrite seq_length in HL; lia].
      assert (Hcell : forall (f : nat -> res EvalError T) s m l k r, Forall2 (fun x y => f x = Ok y) (seq s m) l -> nth_error l k = Some r -> f (s + k) = Ok r).
      { clear. intros f s m. revert s. induction m as [|m IH]; intros s l k r H Hk; inversion H; subst; [destruct k; discriminate|].
        destruct k as [|k]; cbn in Hk; [injection Hk as <-; now rewrite Nat.add_0_r|]. rewrite <- Nat.add_succ_comm. eapply IH; eauto. }
      pose proof (Hcell _ _ _ _ _ _ Hrow Ey) as Hy. cbn [Nat.add] in Hy. clear Hcell.
      rewrite (Hx j Hjn) in Hy. cbn [bind var_values var_name idx nth_error unwrap] in Hy.
      change (match nth_error rs i with Some x => Ok x | None => Panic end) with (@idx EvalError _ rs i) in Hy.
      rewrite idx_com in Hy by lia. cbn [bind] in Hy. unfold calculate_derivative_newton in Hy. cbn [bind] in Hy.
      apply bind_ok in Hy as (d & Hy & _). apply bind_ok in Hy as (vs & Hvs & Hy). apply bind_ok in Hy as (v & Hv & Hy). apply bind_ok in Hy as (qs & Hqs & _).
      apply Hquot2 in Hqs as (y' & ->). apply idx_ok in Hv. destruct vs as [|w vs]; [discriminate|]. cbn in Hv. injection Hv as ->.
      exists y', vs. rewrite <- Hvs. rewrite bump_set_nth by lia. symmetry. apply Hag.
      - apply shifted_context; auto. now apply nth_error_nth'.
      - rewrite set_nums_distinct by (try assumption; now rewrite set_nth_length). reflexivity. }
    assert (Hcol : forall j, j < n -> exists col, residuals ev_miss sv c search (bump j xs) col).
    { intros j Hjn. assert (G : forall i, i < List.length search -> exists y, ev_miss (set_nums c sv (bump j xs)) (nth i search (AList [], AList [])) y) by (intros i Hi; apply Hel; lia).
      unfold residuals. clear -G. induction search as [|e l IH]; [exists []; constructor|].
      destruct (G 0) as [y Hy]; [cbn; lia|]. cbn [nth] in Hy.
      destruct IH as [col Hcol]; [intros i Hi; apply (G (S i)); cbn; lia|]. exists (y :: col). constructor; assumption. }
    assert (G : forall m, m <= n -> exists cols, List.length cols = m /\ forall j col, nth_error cols j = Some col -> residuals ev_miss sv c search (bump j xs) col).
    { induction m as [|m IH]; intros Hm; [exists []; split; [reflexivity|]; intros [|j] col; discriminate|].
      destruct IH as (cols & HL & Hcols); [lia|]. destruct (Hcol m) as [col Hm']; [lia|]. exists (cols ++ [col]). rewrite app_length. split; [cbn; lia|].
      intros j col' Hj'. destruct (Nat.lt_ge_cases j (List.length cols)) as [Hlt|Hge].
      - rewrite nth_error_app1 in Hj' by exact Hlt. eauto.
      - rewrite nth_error_app2 in Hj' by exact Hge. destruct (j - List.length cols) as [|k] eqn:Ek; [|destruct k; discriminate].
        cbn in Hj'. injection Hj' as <-. replace j with m by lia. exact Hm'. }
    destruct (G n (le_n _)) as (cols & HL & Hcols). exists cols. split; [congruence|exact Hcols].
  - apply mapM_err_iff in Hj as (pre & i & post & ? & Es & _ & Hi).
    assert (Hin : i < n). { assert (In i (seq 0 n)) as HI by (rewrite Es, in_app_iff; cbn; auto). apply in_seq in HI. lia. }
    destruct (nth_error es i) as [e'|] eqn:He; [|apply nth_error_None in He; rewrite es_len in He; lia].
    unfold idx at 1 in Hi. rewrite He in Hi. cbn [unwrap bind] in Hi. apply bind_err in Hi as [Hi|(row & _ & Hi)]; [|discriminate].
    apply mapM_err_iff in Hi as (pre' & j & post' & ? & Es' & _ & Hj).
    assert (Hjn : j < n). { assert (In j (seq 0 n)) as HI by (rewrite Es', in_app_iff; cbn; auto). apply in_seq in HI. lia. }
    rewrite (Hx j Hjn) in Hj. cbn [bind var_values var_name idx nth_error unwrap] in Hj.
    change (match nth_error rs i with Some x => Ok x | None => Panic end) with (@idx EvalError _ rs i) in Hj.
    rewrite idx_com in Hj by lia. cbn [bind] in Hj. unfold calculate_derivative_newton in Hj. cbn [bind] in Hj.
    apply bind_err in Hj as [Hj|(d & _ & Hj)]; [|destruct (get_scalar d); discriminate].
    apply bind_err in Hj as [Hj|(vs & Hvs & Hj)]; [eapply Hint; exact Hj|].
    apply bind_err in Hj as [Hj|(v & _ & Hj)]; [destruct vs; discriminate|].
    apply bind_err in Hj as [Hj|(qs & _ & Hj)]; [eapply Hint; exact Hj|]. destruct qs; discriminate.
Qed.

Definition code (e : ending) : option V * bool :=
  match e with Found xs => (Some (as_solution xs), false) | Lost => (None, false) | Flat => (None, true) end.

Lemma finite_check ys : List.length ys = n ->
  exists bad, mapM (fun i : MVar N => do v <- idx (var_values i) 0; Ok (is_inf_or_nan v)) (pvars sv ys) = @Ok EvalError _ bad /\
    existsb (fun b => b) bad = negb (forallb finite ys).
Proof.
  unfold pvars. clear. revert ys. induction sv as [|m l IH]; intros [|y ys] H; try discriminate; [exists []; split; reflexivity|].
  injection H as H. destruct (IH ys H) as (bad & E1 & E2). exists (is_inf_or_nan (Scalar y) :: bad). cbn [combine map mapM fst snd var_values idx nth_error unwrap bind].
  rewrite E1. split; [reflexivity|]. cbn [existsb forallb]. rewrite E2, negb_andb. f_equal. unfold finite. cbn. now rewrite negb_involutive.
Qed.

Lemma residuals_length eqs xs rs : residuals ev_miss sv c eqs xs rs -> List.length rs = List.length eqs.
Proof. intros H. symmetry. exact (Forall2_length H). Qed.

Lemma moved_length d xs : List.length d = n -> List.length xs = n -> List.length (moved d xs) = n.
Proof. intros H1 H2. unfold moved. rewrite map_length, combine_length. lia. Qed.

Lemma newton_far xs rs cols : List.length xs = n -> residuals ev_miss sv c search xs rs -> tiny rs = false ->
  columns ev_miss search sv c xs cols ->
  newton ev es ks (pvars sv xs) c =
  (match gauss_algorithm (newton_rows rs cols) with
   | Ok d => if forallb finite (moved d xs) then Ok (NextX (pvars sv (moved d xs))) else Err NaNOrInf
   | Err e => Err e | Panic => Panic | Fuel => Fuel end, c).
Proof.
  intros Hl Hr Ht Hc. pose proof (residuals_length _ _ _ Hr) as Hrl. rewrite Hle in Hrl. apply residuals_mapM in Hr. unfold newton.
  rewrite <- set_nums_add_all, Hr. change (small rs) with (tiny rs). rewrite Ht, set_nums_add_all, remove_restores by assumption.
  rewrite (jacobi_columns xs rs cols Hl Hrl Hc).
  destruct (gauss_algorithm (newton_rows rs cols)) as [d|e| |] eqn:G; try reflexivity. cbn [bind].
  assert (Hdl : List.length d = n) by (rewrite (gauss_length _ _ G), newton_rows_length; exact Hrl).
  destruct (finite_check (moved d xs) (moved_length d xs Hdl Hl)) as (bad & -> & ->).
  destruct (forallb finite (moved d xs)); reflexivity.
Qed.
Lemma newton_near xs rs ks' : List.length xs = n -> residuals ev_miss sv c search xs rs -> tiny rs = true ->
  residuals ev_miss sv c check xs ks' ->
  newton ev es ks (pvars sv xs) c =
  (match ks' with [] => Ok (FinishedX (pvars sv xs)) | _ => if tiny ks' then Ok (FinishedX (pvars sv xs)) else Err ExpressionCheckFailed end, c).
Proof.
  intros Hl Hr Ht Hk. apply residuals_mapM in Hr. apply residuals_mapM in Hk. unfold newton.
  rewrite <- set_nums_add_all, Hr. change (small rs) with (tiny rs). rewrite Ht, set_nums_add_all, remove_restores by assumption.
  rewrite <- set_nums_add_all, Hk, set_nums_add_all, remove_restores by assumption.
  destruct ks'; [reflexivity|]. change (small (t :: ks')) with (tiny (t :: ks')). destruct (tiny (t :: ks')); reflexivity.
Qed.

Lemma loop_of_run m xs e : List.length xs = n -> run ev_miss search check sv c m xs e ->
  newton_loop ev m es ks (pvars sv xs) c = Ok (code e, c).
Proof.
  intros Hl H. revert Hl. induction H as [xs|m xs rs ks' Hr Ht Hk Hok|m xs rs ks' Hr Ht Hk Hne Hno|m xs rs cols Hr Ht Hc Hg|m xs rs cols d Hr Ht Hc Hg Hinf|m xs rs cols d e Hr Ht Hc Hg Hfin H IH];
    intros Hl; cbn [newton_loop]; [reflexivity| | | | |].
  - rewrite (newton_near xs rs ks' Hl Hr Ht Hk).
    assert (E : (match ks' with [] => Ok (FinishedX (pvars sv xs)) | _ => if tiny ks' then Ok (FinishedX (pvars sv xs)) else Err ExpressionCheckFailed end)
       = @Ok EvalError _ (FinishedX (pvars sv xs))).
    { destruct Hok as [-> | ->]; [inversion Hk; reflexivity|destruct ks'; reflexivity]. }
    rewrite E, pvars_scalars by exact Hl. cbn [bind]. destruct xs as [|x [|? ?]]; reflexivity.
  - rewrite (newton_near xs rs ks' Hl Hr Ht Hk), Hno.
    destruct ks'; [|reflexivity]. exfalso. apply Hne. inversion Hk; reflexivity.
  - rewrite (newton_far xs rs cols Hl Hr Ht Hc), Hg. reflexivity.
  - rewrite (newton_far xs rs cols Hl Hr Ht Hc), Hg, Hinf. reflexivity.
  - rewrite (newton_far xs rs cols Hl Hr Ht Hc), Hg, Hfin. apply IH. apply moved_length; [|exact Hl].
    rewrite (gauss_length _ _ Hg), newton_rows_length, (residuals_length _ _ _ Hr). exact Hle.
Qed.

Lemma run_of_loop m xs r c' : List.length xs = n -> newton_loop ev m es ks (pvars sv xs) c = Ok (r, c') ->
  c' = c /\ exists e, r = code e /\ run ev_miss search check sv c m xs e.
Proof.
  revert xs. induction m as [|m IH]; intros xs Hl H; cbn [newton_loop] in H.
  { injection H as <- <-. split; [reflexivity|]. exists Lost. split; [reflexivity|constructor]. }
  destruct (mapM (eval_scalar ev (set_nums c sv xs)) es) as [rs|e| |] eqn:Hr.
  2:{ unfold newton in H. rewrite <- set_nums_add_all, Hr in H. exfalso. apply mapM_err_iff in Hr as (? & b & ? & ? & _ & _ & Hb).
      assert (Hni : ~ internal e).
      { unfold eval_scalar in Hb. apply bind_err in Hb as [Hb|(vs & _ & Hb)]; [eapply Hint; exact Hb|].
        apply bind_err in Hb as [Hb|(v & _ & Hb)]; [destruct vs; discriminate|]. destruct (get_scalar v); discriminate. }
      unfold internal in Hni. destruct e; try discriminate H; apply Hni; auto. }
  2,3: unfold newton in H; rewrite <- set_nums_add_all, Hr in H; discriminate.
  apply residuals_mapM in Hr. destruct (tiny rs) eqn:Ht.
  - destruct (mapM (eval_scalar ev (set_nums c sv xs)) ks) as [ks'|e| |] eqn:Hk.
    + apply residuals_mapM in Hk. rewrite (newton_near xs rs ks' Hl Hr Ht Hk) in H.
      assert (Hfin : forall r c', (do rs <- mapM first_scalar (pvars sv xs);
          match rs with [s] => Ok (Some (Scalar s), false, c) | _ => Ok (Some (Vector rs), false, c) end) = @Ok EvalError _ (r, c') ->
          c' = c /\ r = code (Found xs)).
      { intros r0 c0. rewrite pvars_scalars by exact Hl. cbn [bind]. destruct xs as [|x [|? ?]]; intros [= <- <-]; split; reflexivity. }
      destruct ks' as [|k0 ks'].
      * apply Hfin in H as [-> ->]. split; [reflexivity|]. exists (Found xs). split; [reflexivity|].
        eapply run_found; eauto. left. inversion Hk; reflexivity.
      * destruct (tiny (k0 :: ks')) eqn:Hkt.
        -- apply Hfin in H as [-> ->]. split; [reflexivity|]. exists (Found xs). split; [reflexivity|]. eapply run_found; eauto.
        -- injection H as <- <-. split; [reflexivity|]. exists Lost. split; [reflexivity|]. eapply run_rejected; eauto.
           intros E. rewrite E in Hk. inversion Hk.
    + exfalso. unfold newton in H. apply residuals_mapM in Hr. rewrite <- set_nums_add_all, Hr in H. change (small rs) with (tiny rs) in H.
      rewrite Ht, set_nums_add_all, remove_restores in H by assumption. rewrite <- set_nums_add_all, Hk in H.
      apply mapM_err_iff in Hk as (? & b & ? & ? & _ & _ & Hb).
      assert (Hni : ~ internal e).
      { unfold eval_scalar in Hb. apply bind_err in Hb as [Hb|(vs & _ & Hb)]; [eapply Hint; exact Hb|].
        apply bind_err in Hb as [Hb|(v & _ & Hb)]; [destruct vs; discriminate|]. destruct (get_scalar v); discriminate. }
      unfold internal in Hni. destruct e; try discriminate H; apply Hni; auto.
    + exfalso. unfold newton in H. apply residuals_mapM in Hr. rewrite <- set_nums_add_all, Hr in H. change (small rs) with (tiny rs) in H.
      rewrite Ht, set_nums_add_all, remove_restores in H by assumption. rewrite <- set_nums_add_all, Hk in H. discriminate.
    + exfalso. unfold newton in H. apply residuals_mapM in Hr. rewrite <- set_nums_add_all, Hr in H. change (small rs) with (tiny rs) in H.
      rewrite Ht, set_nums_add_all, remove_restores in H by assumption. rewrite <- set_nums_add_all, Hk in H. discriminate.
  - pose proof (residuals_length _ _ _ Hr) as Hrl. rewrite Hle in Hrl.
    destruct (jacobi_no_columns xs rs Hl Hrl) as [(cols & Hc)|Hno].
    + rewrite (newton_far xs rs cols Hl Hr Ht Hc) in H.
      destruct (gauss_algorithm (newton_rows rs cols)) as [d|e| |] eqn:G; [| |discriminate|discriminate].
      * destruct (forallb finite (moved d xs)) eqn:Hfin.
        -- apply IH in H as (-> & e & -> & He).
           2:{ apply moved_length; [|exact Hl]. rewrite (gauss_length _ _ G), newton_rows_length. exact Hrl. }
           split; [reflexivity|]. exists e. split; [reflexivity|]. eapply run_next; eauto.
        -- injection H as <- <-. split; [reflexivity|]. exists Lost. split; [reflexivity|]. eapply run_away; eauto.
      * assert (He : e = InfiniteSolutions \/ e = UnderdeterminedSystem).
        { clear -G. unfold gauss_algorithm in G. apply bind_err in G as [G|(k & _ & G)].
          { unfold row0_len in G. destruct (newton_rows rs cols); discriminate. }
          destruct (negb _); [injection G as <-; now right|]. left.
          assert (El : forall v e, eliminate InfiniteSolutions v = Err e -> e = InfiniteSolutions).
          { clear. intros v e. unfold eliminate.
            assert (F : forall {A S} (f : S -> A -> res EvalError S) l s e, (forall s a e, f s a = Err e -> e = InfiniteSolutions) -> foldM f l s = Err e -> e = InfiniteSolutions).
            { clear. intros A S f l. induction l as [|a l IH]; intros s e Hf H; cbn in H; [discriminate|].
              apply bind_err in H as [H|(s' & _ & H)]; [eapply Hf; exact H|eapply IH; eauto]. }
            apply F. clear e. intros s i e. apply F. intros t j e' H. apply bind_err in H as [H|(vi & _ & H)]; [unfold idx in H; destruct (nth_error _ _); discriminate|].
            apply bind_err in H as [H|(vj & _ & H)]; [unfold idx in H; destruct (nth_error _ _); discriminate|].
            apply bind_err in H as [H|(rz & _ & H)].
            - exfalso. revert H. apply elim_row_no_err.
            - destruct (snd rz); [now injection H as <-|discriminate]. }
          apply bind_err in G as [G|(v1 & _ & G)]; [eauto|]. apply bind_err in G as [G|(v2 & _ & G)]; [eauto|].
          apply bind_err in G as [G|(r & _ & G)]; [|discriminate]. apply mapM_err_iff in G as (l1 & i & l2 & ys & _ & _ & G).
          exfalso. apply bind_err in G as [G|(row & _ & G)]; [unfold idx in G; destruct (nth_error _ _); discriminate|].
          apply bind_err in G as [G|(x & _ & G)]; [unfold idx in G; destruct (nth_error _ _); discriminate|].
          apply bind_err in G as [G|(y & _ & G)]; [unfold idx in G; destruct (nth_error _ _); discriminate|]. discriminate. }
        destruct He as [-> | ->]; [|discriminate H]. injection H as <- <-. split; [reflexivity|].
        exists Flat. split; [reflexivity|]. eapply run_flat; eauto.
    + exfalso. unfold newton in H. apply residuals_mapM in Hr. rewrite <- set_nums_add_all, Hr in H. change (small rs) with (tiny rs) in H.
      rewrite Ht, set_nums_add_all, remove_restores in H by assumption.
      destruct Hno as [(e & E & Hni)|[E|E]]; rewrite E in H; [|discriminate|discriminate].
      unfold internal in Hni. destruct e; try discriminate H; apply Hni; auto.
Qed.

Lemma start_of_searched js found acc : searched ev_miss search check sv c js found ->
  start_loop ev js es ks sv c acc = Ok (acc ++ found).
Proof.
  intros H. revert acc. induction H as [|j js xs found Hr H IH|j js found Hr H IH|j js Hr]; intros acc; cbn [start_loop].
  - now rewrite app_nil_r.
  - rewrite pvars_start, (loop_of_run 1000 _ (Found xs)) by (exact Hr || now rewrite repeat_length). cbn [bind code]. rewrite IH.
    now rewrite <- app_assoc.
  - rewrite pvars_start, (loop_of_run 1000 _ Lost) by (exact Hr || now rewrite repeat_length). cbn [bind code]. apply IH.
  - rewrite pvars_start, (loop_of_run 1000 _ Flat) by (exact Hr || now rewrite repeat_length). cbn [bind code]. now rewrite app_nil_r.
Qed.
Lemma searched_of_start js acc r : start_loop ev js es ks sv c acc = Ok r ->
  exists found, r = acc ++ found /\ searched ev_miss search check sv c js found.
Proof.
  revert acc. induction js as [|j js IH]; intros acc H; cbn [start_loop] in H.
  - injection H as <-. exists []. rewrite app_nil_r. split; [reflexivity|constructor].
  - rewrite pvars_start in H. apply bind_ok in H as ([[ov b] c'] & Hl & H).
    apply run_of_loop in Hl as (-> & e & Ec & Hr); [|now rewrite repeat_length].
    destruct e as [xs| |]; injection Ec as -> ->.
    + apply IH in H as (found & -> & Hs). exists (as_solution xs :: found). rewrite <- app_assoc. split; [reflexivity|]. now constructor.
    + apply IH in H as (found & -> & Hs). exists found. split; [reflexivity|]. now apply searched_lost.
    + injection H as <-. exists []. rewrite app_nil_r. split; [reflexivity|]. now apply searched_flat.
Qed.
End Search.

(** ** Which numbers the search starts from *)
Lemma integers_seq m from : integers from m = map (fun i => (Z.of_nat i + from)%Z) (seq 0 m).
Proof.
  revert from. induction m as [|m IH]; intros from; [reflexivity|]. cbn [integers seq map]. change (Z.of_nat 0 + from)%Z with from. f_equal.
  rewrite IH, <- seq_shift, map_map. apply map_ext. intros; lia.
Qed.
Lemma starts_integers : starts = starting_numbers.
Proof. unfold starts, starting_numbers. rewrite integers_seq. apply map_ext. intros; lia. Qed.

(** ** Evaluation has the properties used above. *)
Section Eval.
Context {N : Num} {En : Env}.
Notation V := (Value N).
Notation equation := (AST N * AST N)%type.

Lemma eval_named f (b : AST N) c1 c2 : (forall n, named n (vars c1) = named n (vars c2)) -> funs c1 = funs c2 ->
  eval f b c1 = eval f b c2.
Proof.
  intros H1 H2. apply (eval_agree (fun _ => True)); [easy|split; [now intros|easy]|intros m; unfold lookup_fun; now rewrite H2|easy].
Qed.
Lemma eval_quot f (y y0 : T) c : 4 <= f -> eval f (quotient_ast (Scalar y) (Scalar y0)) c =
  Ok [Scalar (ndiv (nadd y (nmul y0 nm1)) step_h)].
Proof. intros H. destruct f as [|[|[|[|f]]]]; try lia. reflexivity. Qed.
Lemma eval_not_internal f (b : AST N) c e : eval f b c = Err e -> ~ internal e.
Proof. intros H. pose proof (eval_rec_not_internal f b c []) as Hs. unfold eval in H. rewrite H in Hs. exact Hs. Qed.
Lemma eval_quot_scalar f v (y0 : T) c vs : eval f (quotient_ast v (Scalar y0)) c = Ok vs -> exists y, v = Scalar y.
Proof.
  intros H. assert (Ho : outcome (quotient_ast v (Scalar y0)) c (Ok vs)) by (eapply outcome_intro; [exact H|discriminate]).
  assert (G : (exists e, grid OSub [v] [Scalar y0] = Err e) -> False).
  { intros [e He]. assert (H1 : outcome (quotient_ast v (Scalar y0)) c (Err e)).
    { unfold quotient_ast. apply op_outcome_left_err.
      eapply op_outcome_iff; [apply from_value_outcome|apply from_value_outcome|split; [discriminate|exact He]]. }
    pose proof (outcome_unique _ _ _ _ Ho H1). discriminate. }
  destruct v as [m|w|y]; [exfalso; apply G; eexists; reflexivity|exfalso; apply G; eexists; reflexivity|eauto].
Qed.
End Eval.

(** ** Fuel *)
Section Limits.
Context {N : Num} {En : Env}.
Notation V := (Value N).
Notation equation := (AST N * AST N)%type.

Lemma run_impl (m1 m2 : Ctx N -> equation -> T -> Prop) search check sv c : (forall c e s, m1 c e s -> m2 c e s) ->
  forall n xs e, run m1 search check sv c n xs e -> run m2 search check sv c n xs e.
Proof.
  intros Hm. assert (Hr : forall eqs xs rs, residuals m1 sv c eqs xs rs -> residuals m2 sv c eqs xs rs).
  { intros eqs xs rs. apply Forall2_impl. intros; now apply Hm. }
  assert (Hc : forall xs cols, columns m1 search sv c xs cols -> columns m2 search sv c xs cols) by (intros xs cols [H1 H2]; split; eauto).
  intros n xs e H. induction H; [apply run_out|eapply run_found|eapply run_rejected|eapply run_flat|eapply run_away|eapply run_next]; eauto.
Qed.
Lemma searched_impl (m1 m2 : Ctx N -> equation -> T -> Prop) search check sv c : (forall c e s, m1 c e s -> m2 c e s) ->
  forall js found, searched m1 search check sv c js found -> searched m2 search check sv c js found.
Proof.
  intros Hm js found H. induction H; [apply searched_end|apply searched_found|apply searched_lost|apply searched_flat]; auto; eapply run_impl; eauto.
Qed.
Lemma miss_outcome f c (e : equation) s : ev_miss (eval f) c e s -> misses_by c e s.
Proof. intros [rest H]. exists rest. eapply outcome_intro; [exact H|discriminate]. Qed.

Notation eventually P := (exists f0, forall f, f0 <= f -> P f).
Lemma eventually_and (P Q : nat -> Prop) : eventually P -> eventually Q -> eventually (fun f => P f /\ Q f).
Proof. intros [a Ha] [b Hb]. exists (max a b). intros f Hf. split; [apply Ha|apply Hb]; lia. Qed.
Lemma residuals_lim sv c eqs xs rs : residuals misses_by sv c eqs xs rs -> eventually (fun f => residuals (ev_miss (eval f)) sv c eqs xs rs).
Proof.
  unfold residuals. induction 1 as [|e s eqs rs (rest & _ & He) _ IH]; [exists 0; intros; constructor|].
  destruct (eventually_and _ _ He IH) as [f0 H]. exists f0. intros f Hf. destruct (H f Hf) as [H1 H2]. constructor; [now exists rest|exact H2].
Qed.
Lemma eventually_all (Q : nat -> nat -> Prop) m : (forall j, j < m -> eventually (Q j)) -> eventually (fun f => forall j, j < m -> Q j f).
Proof.
  induction m as [|m IH]; intros H; [exists 0; intros; lia|].
  destruct (eventually_and _ _ (IH (fun j Hj => H j (Nat.lt_lt_succ_r _ _ Hj))) (H m (Nat.lt_succ_diag_r m))) as [f0 G].
  exists f0. intros f Hf j Hj. destruct (G f Hf) as [G1 G2]. destruct (Nat.eq_dec j m) as [->|]; [exact G2|apply G1; lia].
Qed.
Lemma columns_lim search sv c xs cols : columns misses_by search sv c xs cols -> eventually (fun f => columns (ev_miss (eval f)) search sv c xs cols).
Proof.
  intros [Hl H].
  destruct (eventually_all (fun j f => residuals (ev_miss (eval f)) sv c search (bump j xs) (nth j cols [])) (List.length cols)) as [f0 G].
  { intros j Hj. apply residuals_lim. apply H. now apply nth_error_nth'. }
  exists f0. intros f Hf. split; [exact Hl|]. intros j col Hj. rewrite <- (nth_error_nth _ _ [] Hj). apply G; [exact Hf|].
  apply nth_error_Some. congruence.
Qed.
Lemma run_lim search check sv c n xs e : run misses_by search check sv c n xs e ->
  eventually (fun f => run (ev_miss (eval f)) search check sv c n xs e).
Proof.
  induction 1 as [xs|m xs rs ks' Hr Ht Hk Hok|m xs rs ks' Hr Ht Hk Hne Hno|m xs rs cols Hr Ht Hc Hg|m xs rs cols d Hr Ht Hc Hg Hinf|m xs rs cols d e Hr Ht Hc Hg Hfin H IH].
  - exists 0. intros; apply run_out.
  - destruct (eventually_and _ _ (residuals_lim _ _ _ _ _ Hr) (residuals_lim _ _ _ _ _ Hk)) as [f0 G].
    exists f0. intros f Hf. destruct (G f Hf). eapply run_found; eauto.
  - destruct (eventually_and _ _ (residuals_lim _ _ _ _ _ Hr) (residuals_lim _ _ _ _ _ Hk)) as [f0 G].
    exists f0. intros f Hf. destruct (G f Hf). eapply run_rejected; eauto.
  - destruct (eventually_and _ _ (residuals_lim _ _ _ _ _ Hr) (columns_lim _ _ _ _ _ Hc)) as [f0 G].
    exists f0. intros f Hf. destruct (G f Hf). eapply run_flat; eauto.
  - destruct (eventually_and _ _ (residuals_lim _ _ _ _ _ Hr) (columns_lim _ _ _ _ _ Hc)) as [f0 G].
    exists f0. intros f Hf. destruct (G f Hf). eapply run_away; eauto.
  - destruct (eventually_and _ _ (eventually_and _ _ (residuals_lim _ _ _ _ _ Hr) (columns_lim _ _ _ _ _ Hc)) IH) as [f0 G].
    exists f0. intros f Hf. destruct (G f Hf) as [[? ?] ?]. eapply run_next; eauto.
Qed.
Lemma searched_lim search check sv c js found : searched misses_by search check sv c js found ->
  eventually (fun f => searched (ev_miss (eval f)) search check sv c js found).
Proof.
  induction 1 as [|j js xs found Hr H IH|j js found Hr H IH|j js Hr].
  - exists 0. intros; constructor.
  - destruct (eventually_and _ _ (run_lim _ _ _ _ _ _ _ Hr) IH) as [f0 G]. exists f0. intros f Hf. destruct (G f Hf). now constructor.
  - destruct (eventually_and _ _ (run_lim _ _ _ _ _ _ _ Hr) IH) as [f0 G]. exists f0. intros f Hf. destruct (G f Hf). now apply searched_lost.
  - destruct (run_lim _ _ _ _ _ _ _ Hr) as [f0 G]. exists f0. intros f Hf. apply searched_flat. auto.
Qed.

(** ** The search and the loops *)
Lemma picked_ext {X} (k1 k2 : nat -> bool) i (l : list X) : (forall j, i <= j -> k1 j = k2 j) -> picked k1 i l = picked k2 i l.
Proof. revert i. induction l as [|x l IH]; intros i H; cbn; [reflexivity|]. rewrite H by lia. rewrite (IH (S i)) by (intros; apply H; lia). reflexivity. Qed.
Lemma picked_none {X} i (l : list X) k : (forall j, i <= j -> k j = false) -> picked k i l = [].
Proof. revert i. induction l as [|x l IH]; intros i H; cbn; [reflexivity|]. rewrite H by lia. apply IH. intros; apply H; lia. Qed.
Lemma picked_all {X} i (l : list X) k : (forall j, i <= j -> k j = true) -> picked k i l = l.
Proof. revert i. induction l as [|x l IH]; intros i H; cbn; [reflexivity|]. rewrite H by lia. f_equal. apply IH. intros; apply H; lia. Qed.
Lemma picked_map {X Y} (g : X -> Y) k i (l : list X) : picked k i (map g l) = map g (picked k i l).
Proof. revert i. induction l as [|x l IH]; intros i; cbn; [reflexivity|]. rewrite IH. destruct (k i); reflexivity. Qed.
Lemma member_false l j : Forall (fun i => j < i) l -> member l j = false.
Proof.
  intros H. unfold member. induction H as [|i l Hi _ IH]; cbn; [reflexivity|]. destruct (Nat.eqb_spec j i); [lia|exact IH].
Qed.

Lemma split_picked (es : list (AST N)) comb :
  Sorted.StronglySorted lt comb -> Forall (fun i => i < List.length es) comb ->
  split_exprs es comb = Ok (picked (member comb) 0 es, picked (fun i => negb (member comb i)) 0 es).
Proof.
  intros Hs Hf. unfold split_exprs.
  assert (H : forall suf pre acc removed comb,
    Sorted.StronglySorted lt comb ->
    Forall (fun j => List.length pre + removed <= j < List.length pre + removed + List.length suf) comb ->
    exists r, foldM (fun (s : list (AST N) * list (AST N) * nat) j =>
            let '(search, check, removed) := s in
            if Nat.ltb j removed then Panic
            else do xr <- take_at (j - removed) check;
                 Ok (search ++ [fst xr], snd xr, S removed)) comb (acc, pre ++ suf, removed)
      = @Ok EvalError _ (acc ++ picked (member comb) (List.length pre + removed) suf,
           pre ++ picked (fun i => negb (member comb i)) (List.length pre + removed) suf, r)).
  { clear. induction suf as [|x suf IH]; intros pre acc removed comb Hs Hf.
    - destruct comb as [|j comb].
      + exists removed. cbn. now rewrite !app_nil_r.
      + inversion Hf; subst. cbn in *; lia.
    - destruct comb as [|j comb].
      + exists removed. cbn [foldM]. rewrite picked_none, picked_all by (intros; reflexivity). now rewrite app_nil_r.
      + inversion Hs as [|? ? Hs' Hlt]; subst. inversion Hf as [|? ? Hj Hf']; subst.
        destruct (Nat.eq_dec j (List.length pre + removed)) as [E|E].
        * cbn [foldM]. destruct (Nat.ltb_spec j removed); [lia|].
          assert (Ht : @take_at EvalError _ (j - removed) (pre ++ x :: suf) = Ok (x, pre ++ suf)).
          { unfold take_at. replace (j - removed) with (List.length pre) by lia.
            unfold idx. rewrite nth_error_app2, Nat.sub_diag by lia. cbn [nth_error unwrap bind].
            rewrite firstn_app, Nat.sub_diag, firstn_all. cbn [firstn]. rewrite app_nil_r.
            replace (skipn (S (List.length pre)) (pre ++ x :: suf)) with suf; [reflexivity|].
            clear. induction pre as [|y pre IHpre]; [reflexivity|]. exact IHpre. }
          rewrite Ht. cbn [bind fst snd].
          destruct (IH pre (acc ++ [x]) (S removed) comb Hs') as (r & Hfold).
          { apply Forall_forall. intros i Hi. rewrite Forall_forall in Hlt, Hf'.
            specialize (Hlt i Hi). specialize (Hf' i Hi). cbn in Hf'. lia. }
          exists r. rewrite Hfold. rewrite <- app_assoc. cbn [picked].
          assert (Em : member (j :: comb) (List.length pre + removed) = true) by (rewrite <- E; unfold member; cbn; now rewrite Nat.eqb_refl).
          rewrite Em. cbn [negb app]. rewrite Nat.add_succ_r.
          rewrite (picked_ext (member (j :: comb)) (member comb)), (picked_ext (fun i => negb (member (j :: comb) i)) (fun i => negb (member comb i)));
            [reflexivity| |]; intros i Hi; unfold member; cbn; destruct (Nat.eqb_spec i j); try lia; reflexivity.
        * destruct (IH (pre ++ [x]) acc removed (j :: comb) Hs) as (r & Hfold).
          { rewrite app_length. cbn [List.length]. cbn [List.length] in Hj, Hf'.
            constructor; [lia|]. apply Forall_forall. intros i Hi. rewrite Forall_forall in Hlt, Hf'.
            specialize (Hlt i Hi). specialize (Hf' i Hi). lia. }
          exists r. rewrite <- app_assoc in Hfold. cbn [app] in Hfold. rewrite Hfold.
          assert (Em : member (j :: comb) (List.length pre + removed) = false).
          { apply member_false. constructor; [lia|]. apply Forall_forall. intros i Hi. rewrite Forall_forall in Hlt. specialize (Hlt i Hi). lia. }
          cbn [picked]. rewrite Em. cbn [negb]. rewrite app_length, <- app_assoc. cbn [List.length app].
          replace (List.length pre + 1 + removed) with (S (List.length pre + removed)) by lia. reflexivity. }
  destruct (H es [] [] 0 comb Hs) as (r & Hfold).
  { cbn. eapply Forall_impl; [|exact Hf]. cbn; intros; lia. }
  cbn [app List.length Nat.add] in Hfold. rewrite Hfold. reflexivity.
Qed.

Lemma picked_length {X} (l : list X) comb : Sorted.StronglySorted lt comb -> Forall (fun i => i < List.length l) comb ->
  List.length (picked (member comb) 0 l) = List.length comb.
Proof.
  assert (H : forall (l : list X) i comb, Sorted.StronglySorted lt comb -> Forall (fun j => i <= j < i + List.length l) comb ->
     List.length (picked (member comb) i l) = List.length comb).
  { clear. intros l. induction l as [|x l IH]; intros i comb Hs Hf.
    - destruct comb; [reflexivity|]. inversion Hf; subst. cbn in *; lia.
    - destruct comb as [|j comb]; [cbn; now rewrite picked_none|].
      inversion Hs as [|? ? Hs' Hlt]; subst. inversion Hf as [|? ? Hj Hf']; subst. cbn [picked]. rewrite Forall_forall in Hlt, Hf'.
      destruct (Nat.eq_dec i j) as [->|E].
      + assert (Em : member (j :: comb) j = true) by (unfold member; cbn; now rewrite Nat.eqb_refl). rewrite Em.
        cbn [List.length]. f_equal. rewrite (picked_ext _ (member comb)).
        2:{ intros k Hk. unfold member; cbn. destruct (Nat.eqb_spec k j); [lia|reflexivity]. }
        apply IH; [exact Hs'|]. apply Forall_forall. intros k Hk. specialize (Hlt k Hk). specialize (Hf' k Hk). cbn in Hf'. lia.
      + rewrite member_false. 2:{ constructor; [lia|]. apply Forall_forall. intros k Hk. specialize (Hlt k Hk). lia. }
        apply IH; [exact Hs|]. constructor; [cbn in Hj; lia|]. apply Forall_forall. intros k Hk. specialize (Hlt k Hk). specialize (Hf' k Hk). cbn in Hf'. lia. }
  intros Hs Hf. apply H; [exact Hs|]. eapply Forall_impl; [|exact Hf]. cbn; intros; lia.
Qed.

(** One choice of equations, as the model computes it. *)
Definition loops_js js f (eqs : list equation) sv c l : res EvalError (list V) :=
  do sc <- split_exprs (map (fun i => AOp OSub (fst i) (snd i)) eqs) l;
  start_loop (eval f) js (fst sc) (snd sc) sv c [].
Definition finds_js js (eqs : list equation) sv c l found : Prop :=
  searched misses_by (picked (member l) 0 eqs) (picked (fun i => negb (member l i)) 0 eqs) sv c js found.

Lemma loops_finds_js js f eqs sv c l found : NoDup sv -> undefined c sv -> 4 <= f -> is_choice (List.length sv) (List.length eqs) l ->
  loops_js js f eqs sv c l = Ok found -> finds_js js eqs sv c l found.
Proof.
  intros Hnd Hd Hf (Hl1 & Hl2 & Hl3) H. unfold loops_js in H. rewrite split_picked in H by (try assumption; now rewrite map_length).
  cbn [bind fst snd] in H. rewrite !picked_map in H.
  apply (searched_of_start (eval f) (eval_named f) (fun y y0 c => eval_quot f y y0 c Hf) (eval_quot_scalar f) (eval_not_internal f)) in H as (fd & -> & Hs); auto.
  - unfold finds_js. eapply searched_impl; [|exact Hs]. intros; now apply miss_outcome with f.
  - now rewrite picked_length.
Qed.
Lemma finds_loops_js js eqs sv c l found : NoDup sv -> undefined c sv -> is_choice (List.length sv) (List.length eqs) l ->
  finds_js js eqs sv c l found -> exists f0, forall f, f0 <= f -> loops_js js f eqs sv c l = Ok found.
Proof.
  intros Hnd Hd (Hl1 & Hl2 & Hl3) H. unfold finds_js in H. apply searched_lim in H as [f0 H].
  exists (max 4 f0). intros f Hf. unfold loops_js. rewrite split_picked by (try assumption; now rewrite map_length).
  cbn [bind fst snd]. rewrite !picked_map.
  assert (Hpl : List.length (picked (member l) 0 eqs) = List.length sv) by now rewrite picked_length.
  rewrite (start_of_searched (eval f) (eval_named f) (fun y y0 c => eval_quot f y y0 c ltac:(lia)) _ _ sv c Hnd Hd
    Hpl js found); [reflexivity|]. apply H. lia.
Qed.
Definition loops f (eqs : list equation) sv c l : res EvalError (list V) := loops_js starts f eqs sv c l.
Lemma finds_starts eqs sv c l found : finds eqs sv c l found <-> finds_js starts eqs sv c l found.
Proof. rewrite starts_integers. reflexivity. Qed.
Lemma loops_finds f eqs sv c l found : NoDup sv -> undefined c sv -> 4 <= f -> is_choice (List.length sv) (List.length eqs) l ->
  loops f eqs sv c l = Ok found -> finds eqs sv c l found.
Proof. intros H1 H2 H3 H4 H5. apply finds_starts. exact (loops_finds_js starts f eqs sv c l found H1 H2 H3 H4 H5). Qed.
Lemma finds_loops eqs sv c l found : NoDup sv -> undefined c sv -> is_choice (List.length sv) (List.length eqs) l ->
  finds eqs sv c l found -> exists f0, forall f, f0 <= f -> loops f eqs sv c l = Ok found.
Proof. intros H1 H2 H3 H4. exact (finds_loops_js starts eqs sv c l found H1 H2 H3 (proj1 (finds_starts _ _ _ _ _) H4)). Qed.

(** ** One search, one result *)
Lemma misses_by_det c (e : equation) s s' : misses_by c e s -> misses_by c e s' -> s = s'.
Proof. intros [r1 H1] [r2 H2]. pose proof (outcome_unique _ _ _ _ H1 H2) as E. now injection E. Qed.
Lemma residuals_det sv c eqs xs rs rs' : residuals misses_by sv c eqs xs rs -> residuals misses_by sv c eqs xs rs' -> rs = rs'.
Proof.
  unfold residuals. intros H. revert rs'. induction H as [|e s eqs rs He _ IH]; intros rs' H'; inversion H'; subst; [reflexivity|].
  f_equal; [eapply misses_by_det; eauto|now apply IH].
Qed.
Lemma columns_det search sv c xs cols cols' : columns misses_by search sv c xs cols -> columns misses_by search sv c xs cols' -> cols = cols'.
Proof.
  intros [L1 H1] [L2 H2]. apply nth_ext with [] []; [congruence|]. intros j Hj.
  eapply residuals_det; [apply H1; now apply nth_error_nth'|apply H2; apply nth_error_nth'; congruence].
Qed.
Lemma run_det search check sv c n xs e e' : run misses_by search check sv c n xs e -> run misses_by search check sv c n xs e' -> e = e'.
Proof.
  intros H. revert e'. induction H as [xs|m xs rs ks' Hr Ht Hk Hok|m xs rs ks' Hr Ht Hk Hne Hno|m xs rs cols Hr Ht Hc Hg|m xs rs cols d Hr Ht Hc Hg Hinf|m xs rs cols d e Hr Ht Hc Hg Hfin H IH];
    intros e' H'; inversion H'; subst; try reflexivity;
    repeat match goal with
    | A : residuals misses_by sv c ?q ?x ?a, B : residuals misses_by sv c ?q ?x ?b |- _ => first [constr_eq a b; clear B | pose proof (residuals_det _ _ _ _ _ _ A B); subst; clear B]
    | A : columns misses_by _ sv c ?x ?a, B : columns misses_by _ sv c ?x ?b |- _ => first [constr_eq a b; clear B | pose proof (columns_det _ _ _ _ _ _ A B); subst; clear B]
    end; try congruence.
  - destruct Hok; congruence.
  - match goal with A : check = [] \/ _ |- _ => destruct A; congruence end.
  - apply IH. match goal with A : gauss_algorithm ?x = Ok ?a, B : gauss_algorithm ?x = Ok ?b |- _ => rewrite A in B; injection B as <- end. assumption.
Qed.
Lemma searched_det search check sv c js found found' : searched misses_by search check sv c js found ->
  searched misses_by search check sv c js found' -> found = found'.
Proof.
  intros H. revert found'. induction H as [|j js xs found Hr H IH|j js found Hr H IH|j js Hr]; intros found' H'; inversion H'; subst; try reflexivity;
    match goal with A : run _ _ _ _ _ _ _ ?a, B : run _ _ _ _ _ _ _ ?b |- _ => pose proof (run_det _ _ _ _ _ _ _ _ A B) as E; try discriminate E end.
  - injection E as <-. f_equal. now apply IH.
  - now apply IH.
Qed.
End Limits.
