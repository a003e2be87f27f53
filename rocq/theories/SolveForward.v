(** * SolveForward: what the solver does when every evaluation succeeds. *)
From Coq Require Import List NArith ZArith Bool Lia Arith String.
From Verif Require Import Base BaseFacts F64 Num Types Maths Helpers Parser Eval EvalFuel SpecEval
  EvalProofs ContextProofs GrammarSpec MathsForms CalcSpec SolveSpec SolveProofs SolveProofs2 PropSolve.
Import ListNotations.

Section Forward.
Context {N : Num} {En : Env}.
Notation V := (Value N).

(** ** Contexts *)
Lemma add_all_distinct (c : Ctx N) x : NoDup (map var_name x) ->
  (forall v w, In v x -> In w (vars c) -> var_name w <> var_name v) ->
  add_all c x = mkCtx (vars c ++ x) (funs c).
Proof.
  revert c. induction x as [|a x IH]; intros c Hn Hd; cbn.
  - rewrite app_nil_r. now destruct c.
  - inversion Hn as [|? ? Ha Hx]; subst.
    assert (E : add_var c a = mkCtx (vars c ++ [a]) (funs c)).
    { unfold add_var. f_equal. f_equal.
      assert (Hall : forall w, In w (vars c) -> negb (str_eqb (var_name w) (var_name a)) = true).
      { intros w Hw. destruct (str_eqb_spec (var_name w) (var_name a)) as [E|E]; [|reflexivity].
        exfalso. apply (Hd a w); auto. now left. }
      revert Hall. generalize (vars c). induction l as [|w l IHl]; intros Hall; cbn; [reflexivity|].
      rewrite Hall by now left. f_equal. apply IHl. intros; apply Hall; now right. }
    change (add_all (add_var c a) x = mkCtx (vars c ++ a :: x) (funs c)).
    rewrite E, IH; [|exact Hx|].
    + cbn. now rewrite <- app_assoc.
    + cbn. intros v w Hv Hw. apply in_app_iff in Hw as [Hw|[<-|[]]].
      * apply Hd; auto. now right.
      * intros E'. apply Ha. rewrite E'. now apply in_map.
Qed.

Definition undefined (c : Ctx N) (sv : list str) : Prop :=
  forall n v, In n sv -> In v (vars c) -> var_name v <> n.

Lemma pvars_In sv xs v : In v (pvars sv xs) -> In (var_name v) sv.
Proof.
  unfold pvars. intros H. apply in_map_iff in H as ([n s] & <- & H). cbn. now apply in_combine_l in H.
Qed.
Lemma set_nums_distinct (c : Ctx N) sv xs : NoDup sv -> undefined c sv -> List.length xs = List.length sv ->
  set_nums c sv xs = mkCtx (vars c ++ pvars sv xs) (funs c).
Proof.
  intros Hn Hd Hl. rewrite set_nums_add_all. apply add_all_distinct.
  - now rewrite pvars_names.
  - intros v w Hv Hw. apply Hd; [|exact Hw]. now apply pvars_In in Hv.
Qed.
Lemma remove_restores (c : Ctx N) sv xs : undefined c sv -> List.length xs = List.length sv ->
  remove_all (add_all c (pvars sv xs)) (pvars sv xs) = c.
Proof.
  intros Hd Hl. pose proof (pvars_names sv xs Hl) as Hx.
  assert (Hb : based sv c c).
  { split; [|reflexivity]. apply drop_none. intros v Hv Hn. exact (Hd _ _ Hn Hv eq_refl). }
  destruct (based_add _ _ _ _ Hb Hx) as [_ [H1 H2]].
  rewrite remove_all_vars, Hx, H1, H2. now destruct c.
Qed.

Lemma named_none n (l : list (MVar N)) : (forall v, In v l -> var_name v <> n) -> named n l = [].
Proof.
  unfold named. induction l as [|v l IH]; intros H; cbn; [reflexivity|].
  destruct (str_eqb_spec (var_name v) n) as [E|E]; [exfalso; apply (H v); [now left|exact E]|].
  apply IH. intros w Hw; apply H; now right.
Qed.
Lemma set_nth_split {A} (l : list A) j x : j < List.length l -> set_nth l j x = firstn j l ++ x :: skipn (S j) l.
Proof. revert j; induction l as [|y l IH]; intros [|j] H; cbn in *; try lia; [reflexivity|]. rewrite IH by lia. reflexivity. Qed.
Lemma pvars_set_nth sv xs j t n : List.length xs = List.length sv -> nth_error sv j = Some n ->
  pvars sv (set_nth xs j t) = set_nth (pvars sv xs) j (mkVar n [Scalar t]).
Proof.
  revert xs j; induction sv as [|m sv IH]; intros [|x xs] [|j] Hl Hn; cbn in *; try discriminate.
  - injection Hn as ->. reflexivity.
  - unfold pvars in *. cbn. f_equal. apply IH; [lia|exact Hn].
Qed.

(** The context in which a partial derivative is taken. *)
Lemma shifted_context c sv xs j n t : NoDup sv -> undefined c sv -> List.length xs = List.length sv ->
  nth_error sv j = Some n ->
  forall m, named m (vars (add_var (remove_var (mkCtx (vars c ++ others j (pvars sv xs)) (funs c)) n) (mkVar n [Scalar t])))
    = named m (vars (set_nums c sv (set_nth xs j t))).
Proof.
  intros Hnd Hd Hl Hn m.
  assert (Hj : j < List.length sv) by (apply nth_error_Some; congruence).
  rewrite set_nums_distinct by (try assumption; now rewrite set_nth_length).
  rewrite (pvars_set_nth sv xs j t n) by assumption.
  rewrite set_nth_split by now rewrite pvars_length.
  rewrite named_add_var, named_remove_var. cbn [vars var_name]. rewrite !named_app. unfold others. rewrite named_app.
  pose proof (pvars_names sv xs Hl) as Hx.
  assert (Hp : nth_error (pvars sv xs) j = Some (mkVar n [Scalar (nth j xs n0)])).
  { rewrite pvars_nth, Hn by assumption. rewrite (nth_error_nth' xs n0) by lia. reflexivity. }
  apply nth_error_split in Hp as (l1 & l2 & E & El).
  rewrite E in *. rewrite map_app in Hx. cbn [map var_name] in Hx.
  assert (E1 : firstn j (l1 ++ mkVar n [Scalar (nth j xs n0)] :: l2) = l1).
  { rewrite <- El. now rewrite firstn_app, Nat.sub_diag, firstn_all, app_nil_r. }
  assert (E2 : skipn (S j) (l1 ++ mkVar n [Scalar (nth j xs n0)] :: l2) = l2).
  { rewrite <- El. rewrite skipn_app. rewrite skipn_all2 by lia.
    replace (S (List.length l1) - List.length l1) with 1 by lia. reflexivity. }
  rewrite E1, E2. destruct (str_eqb_spec n m) as [<-|Hm].
  - rewrite <- Hx in Hnd. apply NoDup_remove_2 in Hnd. rewrite in_app_iff in Hnd.
    assert (Hno : forall l, ~ In n (map var_name l) -> named n l = []).
    { intros l H. apply named_none. intros v Hv E'. apply H. rewrite <- E'. now apply in_map. }
    rewrite (named_none n (vars c)), (Hno l1) by tauto || (intros v Hv E'; apply (Hd n v); auto; now apply nth_error_In in Hn).
    + change (named n (?v :: l2)) with (named n ([v] ++ l2)). rewrite named_app, (Hno l2) by tauto.
      cbn. now rewrite str_eqb_refl.
  - rewrite str_eqb_sym. destruct (str_eqb_spec n m) as [E'|_]; [contradiction|].
    f_equal. f_equal. cbn. destruct (str_eqb_spec n m) as [E'|_]; [contradiction|reflexivity].
Qed.

Section Newton.
Variable ev : AST N -> Ctx N -> res EvalError (list V).
Hypothesis Hag : forall b c1 c2, (forall n, named n (vars c1) = named n (vars c2)) -> funs c1 = funs c2 -> ev b c1 = ev b c2.
Hypothesis Hquot : forall y y0 c, ev (quotient_ast (Scalar y) (Scalar y0)) c =
  Ok [Scalar (ndiv (nadd y (nmul y0 nm1)) step_h)].
Variables (es : list (AST N)) (sv : list str) (c : Ctx N).
Hypothesis Hnd : NoDup sv.
Hypothesis Hd : undefined c sv.
Hypothesis Hle : List.length es = List.length sv.

(** The first values of all the expressions at the point [xs]. *)
Definition values_at (xs fx : list T) : Prop :=
  Forall2 (fun e f => exists rest, ev e (set_nums c sv xs) = Ok (Scalar f :: rest)) es fx.

Lemma values_mapM xs fx : values_at xs fx -> mapM (eval_scalar ev (set_nums c sv xs)) es = Ok fx.
Proof.
  unfold values_at. clear Hle. induction 1 as [|e f l l' (rest & H) _ IH]; cbn; [reflexivity|].
  unfold eval_scalar at 1. rewrite H. cbn [bind idx nth_error unwrap get_scalar]. rewrite IH. reflexivity.
Qed.
Lemma values_length xs fx : values_at xs fx -> List.length fx = List.length sv.
Proof. intros H. rewrite <- Hle. symmetry. exact (Forall2_length H). Qed.

Lemma newton_small xs fx : List.length xs = List.length sv -> values_at xs fx -> small fx = true ->
  newton ev es [] (pvars sv xs) c = (Ok (FinishedX (pvars sv xs)), c).
Proof.
  intros Hl Hv Hs. unfold newton. rewrite <- set_nums_add_all, (values_mapM xs fx Hv), Hs. cbn [mapM].
  rewrite set_nums_add_all. now rewrite !(remove_restores c sv xs) by assumption.
Qed.

(** The system of equations for the next step. *)
Definition newton_system (xs fx : list T) (y : nat -> nat -> T) : list (list T) :=
  tab (List.length sv) (fun i => tab (List.length sv) (fun j =>
    ndiv (nadd (y i j) (nmul (com fx i) nm1)) step_h) ++ [nmul nm1 (com fx i)]).

Lemma jacobi_reduces xs fx y : List.length xs = List.length sv -> List.length fx = List.length sv ->
  (forall j, j < List.length sv ->
     values_at (set_nth xs j (nadd (com xs j) step_h)) (tab (List.length sv) (fun i => y i j))) ->
  jacobi_and_gauss ev es (pvars sv xs) c fx =
  do delta <- gauss_algorithm (newton_system xs fx y);
  mapM (fun i => do xi <- idx (pvars sv xs) i; do d <- idx delta i; do s <- first_scalar xi;
      Ok (mkVar (var_name xi) [Scalar (nadd d s)])) (seq 0 (List.length sv)).
Proof.
  intros Hl Hf Hy. unfold jacobi_and_gauss. set (n := List.length sv) in *.
  rewrite (pvars_length sv xs Hl). fold n. rewrite Hle.
  assert (Hx : forall j, j < n -> @idx EvalError _ (pvars sv xs) j = Ok (mkVar (nth j sv []) [Scalar (com xs j)])).
  { intros j Hj. unfold idx. rewrite pvars_nth by exact Hl.
    rewrite (nth_error_nth' sv []) by exact Hj. rewrite (nth_error_nth' xs n0) by (rewrite Hl; exact Hj). reflexivity. }
  rewrite (mapM_tab _ (fun i => tab n (fun j => ndiv (nadd (y i j) (nmul (com fx i) nm1)) step_h))).
  2:{ intros i Hi.
      destruct (nth_error es i) as [e|] eqn:He; [|apply nth_error_None in He; lia].
      unfold idx at 1. rewrite He. cbn [unwrap bind].
      rewrite (mapM_tab _ (fun j => ndiv (nadd (y i j) (nmul (com fx i) nm1)) step_h)); [reflexivity|].
      intros j Hj. rewrite (Hx j Hj). cbn [bind var_values var_name idx nth_error unwrap].
      change (match nth_error fx i with Some x => Ok x | None => Panic end) with (@idx EvalError _ fx i).
      rewrite idx_com by lia. cbn [bind]. unfold calculate_derivative_newton. cbn [bind].
      specialize (Hy j Hj). unfold values_at in Hy.
      assert (Hej : exists rest, ev e (set_nums c sv (set_nth xs j (nadd (com xs j) step_h))) = Ok (Scalar (y i j) :: rest)).
      { clear -Hy He Hi.
        assert (G : forall l1 l2 k, Forall2 (fun e f => exists rest,
             ev e (set_nums c sv (set_nth xs j (nadd (com xs j) step_h))) = Ok (Scalar f :: rest)) l1 l2 ->
           nth_error l1 k = Some e -> forall f, nth_error l2 k = Some f -> exists rest,
             ev e (set_nums c sv (set_nth xs j (nadd (com xs j) step_h))) = Ok (Scalar f :: rest)).
        { intros l1 l2 k H. revert k. induction H as [|a b l1 l2 Hab _ IH]; intros [|k] H1 f0 H2; cbn in *; try discriminate.
          - injection H1 as ->. injection H2 as ->. exact Hab.
          - eapply IH; eauto. }
        eapply G; [exact Hy|exact He|]. now rewrite tab_nth_error. }
      destruct Hej as (rest & Hej).
      assert (Hnj : nth_error sv j = Some (nth j sv [])) by now apply nth_error_nth'.
      change (nadd (com xs j) eps) with (nadd (com xs j) step_h).
      rewrite (Hag e _ (set_nums c sv (set_nth xs j (nadd (com xs j) step_h)))).
      2:{ apply shifted_context; auto. }
      2:{ rewrite set_nums_distinct by (try assumption; now rewrite set_nth_length). reflexivity. }
      rewrite Hej. cbn [bind idx nth_error unwrap]. rewrite Hquot. reflexivity. }
  cbn [bind]. rewrite tab_length.
  rewrite (mapM_tab _ (fun i => tab n (fun j => ndiv (nadd (y i j) (nmul (com fx i) nm1)) step_h) ++ [nmul nm1 (com fx i)])).
  2:{ intros i Hi. unfold idx at 1. rewrite tab_nth_error by exact Hi. cbn [unwrap bind]. rewrite idx_com by lia. reflexivity. }
  cbn [bind]. unfold newton_system. fold n. reflexivity.
Qed.

Lemma jacobi_forward xs fx y delta : List.length xs = List.length sv -> List.length fx = List.length sv ->
  (forall j, j < List.length sv ->
     values_at (set_nth xs j (nadd (com xs j) step_h)) (tab (List.length sv) (fun i => y i j))) ->
  gauss_algorithm (newton_system xs fx y) = Ok delta -> List.length delta = List.length sv ->
  jacobi_and_gauss ev es (pvars sv xs) c fx =
  Ok (pvars sv (tab (List.length sv) (fun i => nadd (com delta i) (com xs i)))).
Proof.
  intros Hl Hf Hy Hg Hdl. rewrite (jacobi_reduces xs fx y Hl Hf Hy), Hg. cbn [bind]. set (n := List.length sv) in *.
  assert (Hx : forall j, j < n -> @idx EvalError _ (pvars sv xs) j = Ok (mkVar (nth j sv []) [Scalar (com xs j)])).
  { intros j Hj. unfold idx. rewrite pvars_nth by exact Hl.
    rewrite (nth_error_nth' sv []) by exact Hj. rewrite (nth_error_nth' xs n0) by (rewrite Hl; exact Hj). reflexivity. }
  rewrite (mapM_tab _ (fun i => mkVar (nth i sv []) [Scalar (nadd (com delta i) (com xs i))])).
  2:{ intros i Hi. rewrite (Hx i Hi). cbn [bind]. rewrite idx_com by lia. reflexivity. }
  f_equal. unfold pvars.
  assert (G : forall (sv : list str) (g : nat -> T), map (fun p => mkVar (fst p) [Scalar (snd p)]) (combine sv (tab (List.length sv) g))
     = tab (List.length sv) (fun i => mkVar (nth i sv []) [Scalar (g i)])).
  { clear. intros sv. induction sv as [|n l IH]; intros g; [reflexivity|].
    unfold tab in *. cbn [List.length seq map combine]. f_equal. rewrite <- seq_shift, !map_map.
    exact (IH (fun i => g (S i))). }
  symmetry. apply G.
Qed.

Lemma newton_stuck xs fx y e : List.length xs = List.length sv ->
  values_at xs fx -> small fx = false ->
  (forall j, j < List.length sv ->
     values_at (set_nth xs j (nadd (com xs j) step_h)) (tab (List.length sv) (fun i => y i j))) ->
  gauss_algorithm (newton_system xs fx y) = Err e ->
  newton ev es [] (pvars sv xs) c = (Err e, c).
Proof.
  intros Hl Hv Hs Hy Hg. unfold newton.
  rewrite <- set_nums_add_all, (values_mapM xs fx Hv), Hs, set_nums_add_all, remove_restores by assumption.
  rewrite (jacobi_reduces xs fx y), Hg by (try assumption; eapply values_length; eassumption). reflexivity.
Qed.

Lemma newton_step xs fx y delta : List.length xs = List.length sv ->
  values_at xs fx -> small fx = false ->
  (forall j, j < List.length sv ->
     values_at (set_nth xs j (nadd (com xs j) step_h)) (tab (List.length sv) (fun i => y i j))) ->
  gauss_algorithm (newton_system xs fx y) = Ok delta -> List.length delta = List.length sv ->
  (forall i, i < List.length sv -> fine (nadd (com delta i) (com xs i))) ->
  newton ev es [] (pvars sv xs) c =
  (Ok (NextX (pvars sv (tab (List.length sv) (fun i => nadd (com delta i) (com xs i))))), c).
Proof.
  intros Hl Hv Hs Hy Hg Hdl Hfine. unfold newton.
  rewrite <- set_nums_add_all, (values_mapM xs fx Hv), Hs, set_nums_add_all, remove_restores by assumption.
  rewrite (jacobi_forward xs fx y delta) by (try assumption; now apply values_length with xs).
  set (ys := tab _ _). assert (Hys : Forall fine ys).
  { apply Forall_forall. intros s Hin. unfold ys, tab in Hin. apply in_map_iff in Hin as (i & <- & Hi).
    apply in_seq in Hi. apply Hfine. lia. }
  assert (Hyl : List.length ys = List.length sv) by apply tab_length.
  assert (E : mapM (fun i : MVar N => do v <- idx (var_values i) 0; Ok (is_inf_or_nan v)) (pvars sv ys)
            = @Ok EvalError _ (map (fun _ => false) ys)).
  { clearbody ys. clear -Hys Hyl. revert ys Hys Hyl. unfold pvars. induction sv as [|n l IH]; intros [|s ys] Hys Hyl; try discriminate; [reflexivity|].
    inversion Hys; subst. cbn. injection Hyl as Hyl. rewrite (IH ys) by assumption. cbn.
    match goal with H : fine s |- _ => unfold fine in H; rewrite H end. reflexivity. }
  rewrite E. assert (E' : existsb (fun b : bool => b) (map (fun _ : T => false) ys) = false).
  { clear. induction ys; cbn; auto. }
  now rewrite E'.
Qed.

Lemma finish n xs fx : List.length xs = List.length sv -> values_at xs fx -> small fx = true ->
  newton_loop ev (S n) es [] (pvars sv xs) c = Ok (Some (as_solution xs), false, c).
Proof.
  intros Hl Hv Hs. cbn [newton_loop]. rewrite (newton_small xs fx) by assumption.
  rewrite pvars_scalars by exact Hl. cbn [bind]. destruct xs as [|x [|? ?]]; reflexivity.
Qed.

Lemma step_finish n xs ys fx : newton ev es [] (pvars sv xs) c = (Ok (NextX (pvars sv ys)), c) ->
  List.length ys = List.length sv -> values_at ys fx -> small fx = true ->
  newton_loop ev (S (S n)) es [] (pvars sv xs) c = Ok (Some (as_solution ys), false, c).
Proof. intros H Hl Hv Hs. rewrite <- (finish n ys fx Hl Hv Hs). cbn [newton_loop]. now rewrite H. Qed.

Lemma stuck_loop n xs : newton ev es [] (pvars sv xs) c = (Err InfiniteSolutions, c) ->
  newton_loop ev (S n) es [] (pvars sv xs) c = Ok (None, true, c).
Proof. intros H. cbn [newton_loop]. now rewrite H. Qed.
Lemma start_loop_stuck j js : newton_loop ev 1000 es [] (pvars sv (repeat (nof_Z j) (List.length sv))) c = Ok (None, true, c) ->
  start_loop ev (j :: js) es [] sv c [] = Ok [].
Proof. intros H. cbn [start_loop]. rewrite pvars_start, H. reflexivity. Qed.

(** Every start finds a solution. *)
Lemma start_loop_forward js (g : Z -> V) acc :
  (forall j, In j js -> newton_loop ev 1000 es [] (pvars sv (repeat (nof_Z j) (List.length sv))) c = Ok (Some (g j), false, c)) ->
  start_loop ev js es [] sv c acc = Ok (acc ++ map g js).
Proof.
  revert acc. induction js as [|j js IH]; intros acc H; cbn [start_loop map].
  - now rewrite app_nil_r.
  - rewrite pvars_start, H by now left. cbn [bind]. rewrite IH by (intros k Hk; apply H; now right).
    now rewrite <- app_assoc.
Qed.
End Newton.

(** The probe succeeds and there are as many equations as variables. *)
Lemma solve_forward ev (eqs : list (AST N * AST N)) sv c s rest found e0 eqs' : eqs = e0 :: eqs' ->
  undefined c sv -> List.length eqs = List.length sv ->
  ev (AOp OSub (fst e0) (snd e0)) (set_nums c sv (repeat nprobe (List.length sv))) = Ok (Scalar s :: rest) ->
  start_loop ev starts (map (fun i => AOp OSub (fst i) (snd i)) eqs) [] sv c [] = Ok found ->
  solve ev eqs c sv = do cleaned <- clean_results found; Ok cleaned.
Proof.
  intros E Hd Hl Hp Hs. unfold solve, rf_new. subst eqs.
  pose proof (all_operations (e0 :: eqs')) as Ho.
  set (es := map _ (e0 :: eqs')) in *. assert (He : es = AOp OSub (fst e0) (snd e0) :: map (fun i => AOp OSub (fst i) (snd i)) eqs') by reflexivity.
  assert (Hel : List.length es = List.length sv) by (unfold es; now rewrite map_length).
  rewrite He at 1. rewrite Ho. cbn [negb].
  destruct (existsb _ sv) eqn:Ex.
  { apply defined_spec in Ex as (n & v & Hn & Hv & E). exfalso. exact (Hd n v Hn Hv E). }
  rewrite Hel. rewrite Nat.ltb_irrefl, probe_context_eq. unfold probe_context. rewrite Hp. cbn [bind idx nth_error unwrap].
  unfold find_roots. cbn [rf_combinations rf_expressions rf_context rf_search_vars comb_loop].
  assert (Ep : fold_left remove_var sv (set_nums c sv (repeat nprobe (List.length sv))) = c).
  { rewrite <- (probe_restored c sv Hd) at 2. f_equal. symmetry. apply probe_context_eq. }
  rewrite Ep, <- Hel, split_exprs_all. cbn [bind fst snd]. rewrite Hs. cbn [bind].
  destruct (clean_results found) as [[|v l]| | |]; reflexivity.
Qed.

(** Cleaning the results never fails on numbers that can be compared. *)
Lemma sort_key_total (key : V -> option T) l :
  (forall v, In v l -> exists k, key v = Some k /\ nis_nan k = false) ->
  exists s, sort_key key l = Ok s /\ List.length s = List.length l.
Proof.
  intros H. unfold sort_key.
  assert (E : exists ks, mapM (fun v => unwrap (key v)) l = @Ok EvalError _ ks /\ existsb nis_nan ks = false).
  { clear -H. induction l as [|v l IH]; [exists []; split; reflexivity|].
    destruct (H v (or_introl eq_refl)) as (k & Hk & Hn).
    destruct IH as (ks & E1 & E2); [intros; apply H; now right|].
    exists (k :: ks). cbn [mapM]. rewrite Hk. cbn [unwrap bind]. rewrite E1. split; [reflexivity|].
    cbn. now rewrite Hn, E2. }
  destruct E as (ks & E1 & E2). rewrite E1. cbn [bind]. rewrite E2. eexists. split; [reflexivity|].
  apply Permutation.Permutation_length, sort_perm.
Qed.
Lemma clean_total found :
  (forall v, In v found -> exists k, sort_number v = Some k /\ nis_nan k = false /\ nis_nan (nabs k) = false) ->
  (forall v, In v found -> exists x, v = Scalar x) \/ (forall v, In v found -> exists w, v = Vector w) ->
  exists vs, clean_results found = Ok vs /\ (found <> [] -> vs <> []).
Proof.
  intros Hk Hkind. destruct found as [|r0 found]; [exists []; split; [reflexivity|contradiction]|].
  set (l := dedupe (r0 :: found)).
  pose proof (dedupe_representatives (r0 :: found)) as Hr. fold l in Hr.
  pose proof (representatives_incl _ _ Hr) as Hi.
  assert (Hl : l <> []).
  { destruct (representatives_complete _ _ r0 Hr (or_introl eq_refl)) as (w & Hw & _). now intros E; rewrite E in Hw. }
  assert (Hb : forall key, (forall v, In v l -> exists k, key v = Some k /\ nis_nan k = false /\ nis_nan (nabs k) = false) ->
    exists vs, (if Nat.ltb 10 (List.length l) then
     do s <- sort_key (fun v => option_map nabs (key v)) l; do t <- slice s 0 10; sort_key key t
     else @Ok EvalError _ l) = Ok vs /\ vs <> []).
  { intros key H. destruct (Nat.ltb_spec 10 (List.length l)) as [Hlt|]; [|exists l; auto].
    destruct (sort_key_total (fun v => option_map nabs (key v)) l) as (s & Es & Hs).
    { intros v Hv. destruct (H v Hv) as (k & -> & _ & Hn). cbn. eauto. }
    rewrite Es. cbn [bind]. rewrite slice_ok by lia. cbn [bind skipn Nat.sub].
    destruct (sort_key_total key (firstn 10 s)) as (t & Et & Ht).
    { intros v Hv. destruct (H v) as (k & E & Hn & _); [|eauto].
      apply sort_key_perm in Es. apply (Permutation.Permutation_in _ Es).
      rewrite <- (firstn_skipn 10 s), in_app_iff. now left. }
    exists t. split; [exact Et|]. rewrite firstn_length in Ht. intros ->. cbn [List.length] in Ht. lia. }
  unfold clean_results. fold l.
  destruct Hkind as [Hkind|Hkind]; destruct (Hkind r0 (or_introl eq_refl)) as (x & ->).
  - destruct (Hb get_scalar) as (vs & E & Hne); [|exists vs; auto].
    intros v Hv. apply Hi in Hv. destruct (Hkind v Hv) as (y & ->). exact (Hk _ Hv).
  - destruct (Hb (fun v => match get_vector v with Some w => nth_error w 0 | None => None end)) as (vs & E & Hne); [|exists vs; auto].
    intros v Hv. apply Hi in Hv. destruct (Hkind v Hv) as (w & ->). destruct (Hk _ Hv) as (k & Ek & Hn). exists k. split; [|exact Hn].
    cbn in *. destruct w; [discriminate|exact Ek].
Qed.
(** Copies of one solution count once. *)
Lemma clean_copies (v : V) found : same_rounded v v = true -> is_matrix v = false -> found <> [] -> (forall w, In w found -> w = v) ->
  clean_results found = Ok [v].
Proof.
  intros Hr Hm Hne Hall. assert (E : dedupe found = [v]).
  { destruct found as [|w l]; [contradiction|]. rewrite (Hall w (or_introl eq_refl)). unfold dedupe. cbn [fold_left existsb app].
    assert (Hl : forall w, In w l -> w = v) by (intros; apply Hall; now right). clear -Hl Hr.
    induction l as [|u l IH]; cbn [fold_left]; [reflexivity|]. rewrite (Hl u (or_introl eq_refl)).
    unfold same_rounded in Hr. cbn [existsb]. rewrite Hr. cbn [orb]. apply IH. intros; apply Hl; now right. }
  destruct found as [|w l]; [contradiction|]. unfold clean_results. rewrite E. rewrite (Hall w (or_introl eq_refl)).
  destruct v; [discriminate| |]; reflexivity.
Qed.
End Forward.
