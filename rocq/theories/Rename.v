(** * Rename: evaluation commutes with renaming. *)
From Coq Require Import List NArith ZArith Bool Lia Arith String.
From Verif Require Import Base BaseFacts F64 Num Types Maths Helpers Parser Eval EvalFuel SpecEval RenameSpec.
Import ListNotations.
Local Open Scope list_scope.

Section Rename.
Context {N : Num} {En : Env}.
Notation V := (Value N).
(** New names in expressions and contexts, and the names that errors give. *)
Variables rho sigma tau sigt : str -> str.
Hypothesis rho_inj : injective rho.
Hypothesis sigma_inj : injective sigma.
Notation ren := (ren rho sigma).
Notation rvar := (ren_var rho).
Notation rctx := (ren_ctx rho sigma).
Notation rres := (ren_result tau sigt).
Notation rerr := (ren_error tau sigt).

Lemma rho_eqb a b : str_eqb (rho a) (rho b) = str_eqb a b.
Proof. destruct (str_eqb_spec a b) as [->|H]; [apply str_eqb_refl|]. apply str_eqb_neq. intros E. apply H, rho_inj, E. Qed.
Lemma sigma_eqb a b : str_eqb (sigma a) (sigma b) = str_eqb a b.
Proof. destruct (str_eqb_spec a b) as [->|H]; [apply str_eqb_refl|]. apply str_eqb_neq. intros E. apply H, sigma_inj, E. Qed.

(** ** Outcomes *)
Lemma rres_bind {A B} (r : res EvalError A) (f : A -> res EvalError B) f' :
  (forall a, f' a = rres (f a)) -> bind (rres r) f' = rres (bind r f).
Proof. intros H. destruct r; cbn; auto. Qed.
Lemma rres_mapM {A B} (f : A -> res EvalError B) f' l : (forall a, In a l -> f' a = rres (f a)) -> mapM f' l = rres (mapM f l).
Proof.
  induction l as [|x l IH]; intros H; cbn [mapM]; [reflexivity|]. rewrite H by now left. apply rres_bind. intros y. rewrite IH by (intros; apply H; now right).
  apply rres_bind. reflexivity.
Qed.
Lemma rres_concatM {A B} (f : A -> res EvalError (list B)) f' l : (forall a, In a l -> f' a = rres (f a)) -> concatM f' l = rres (concatM f l).
Proof. intros H. unfold concatM. rewrite (rres_mapM f) by exact H. now apply rres_bind. Qed.
Lemma rres_mathe {A} (r : res string A) : rres (mathe r) = mathe r.
Proof. destruct r; reflexivity. Qed.
Lemma rres_idx {A} (l : list A) i : rres (idx l i) = idx l i.
Proof. unfold idx. destruct (nth_error l i); reflexivity. Qed.
Lemma rres_unwrap {A} (o : option A) : rres (unwrap o) = unwrap o.
Proof. destruct o; reflexivity. Qed.
Lemma idx_map {A B} (g : A -> B) (l : list A) i : @idx EvalError _ (map g l) i = rmap g (idx l i).
Proof. unfold idx. rewrite nth_error_map. destruct (nth_error l i); reflexivity. Qed.

(** Results whose error names no name. *)
Definition keeps {A} (r : res EvalError A) : Prop := rres r = r.
Lemma keeps_bind {A B} (r : res EvalError A) (f : A -> res EvalError B) : keeps r -> (forall a, keeps (f a)) -> keeps (bind r f).
Proof. unfold keeps. intros Hr Hf. destruct r; cbn in *; auto. congruence. Qed.
Lemma keeps_mapM {A B} (f : A -> res EvalError B) l : (forall a, keeps (f a)) -> keeps (mapM f l).
Proof. intros H. unfold keeps. symmetry. apply rres_mapM. intros; symmetry; apply H. Qed.
Lemma keeps_foldM {A S} (f : S -> A -> res EvalError S) l s : (forall s a, keeps (f s a)) -> keeps (foldM f l s).
Proof. intros H. revert s. induction l as [|x l IH]; intros s; cbn [foldM]; [reflexivity|]. apply keeps_bind; auto. Qed.
Lemma keeps_idx {A} (l : list A) i : keeps (idx l i). Proof. apply rres_idx. Qed.
Lemma keeps_unwrap {A} (o : option A) : keeps (unwrap o). Proof. apply rres_unwrap. Qed.
Lemma keeps_ok {A} (a : A) : keeps (Ok a). Proof. reflexivity. Qed.
Lemma keeps_mathe {A} (r : res string A) : keeps (mathe r). Proof. apply rres_mathe. Qed.
Ltac keeps :=
  repeat first [apply keeps_ok | apply keeps_idx | apply keeps_unwrap | apply keeps_mathe | apply keeps_bind; [|intros ?]
    | apply keeps_mapM; intros ? | apply keeps_foldM; intros ? ?
    | match goal with |- keeps (if ?b then _ else _) => destruct b end
    | match goal with |- keeps (match ?x with _ => _ end) => destruct x end
    | reflexivity ].
Lemma keeps_eliminate (v : list (list T)) : keeps (eliminate InfiniteSolutions v).
Proof. unfold eliminate, elim_row. keeps. Qed.
Lemma keeps_gauss (v : list (list T)) : keeps (gauss_algorithm v).
Proof. unfold gauss_algorithm, row0_len. keeps; apply keeps_eliminate. Qed.
Lemma keeps_sort key (l : list V) : keeps (sort_key key l).
Proof. unfold sort_key. keeps. Qed.
Lemma keeps_clean (l : list V) : keeps (clean_results l).
Proof. unfold clean_results. destruct l as [|r0 l]; [reflexivity|]. destruct r0; keeps; unfold slice; keeps; apply keeps_sort. Qed.
Lemma keeps_apply op (i j : V) : keeps (apply_op op i j).
Proof. unfold apply_op. destruct op; keeps. Qed.
Lemma keeps_scalars e (vs : list V) : rerr e = e -> keeps (scalars_or e vs).
Proof. intros He. unfold scalars_or. apply keeps_mapM. intros v. destruct (get_scalar v); [reflexivity|]. unfold keeps, ren_result. cbn. now rewrite He. Qed.
Lemma keeps_samples sums es : keeps (@add_samples N sums es).
Proof. revert sums. induction es as [|e es IH]; intros [|s sums]; cbn [add_samples]; keeps; apply IH. Qed.

(** ** Contexts *)
Lemma ren_lookup c n : lookup_var (rctx c) (rho n) = option_map rvar (lookup_var c n).
Proof. unfold lookup_var. cbn [ren_ctx vars]. induction (vars c) as [|v l IH]; cbn; [reflexivity|]. rewrite rho_eqb. destruct (str_eqb _ _); [reflexivity|exact IH]. Qed.
Lemma ren_lookup_fun c n : lookup_fun (rctx c) (sigma n) = option_map (ren_fun rho sigma) (lookup_fun c n).
Proof. unfold lookup_fun. cbn [ren_ctx funs]. induction (funs c) as [|v l IH]; cbn; [reflexivity|]. rewrite sigma_eqb. destruct (str_eqb _ _); [reflexivity|exact IH]. Qed.
Lemma ren_filter n l : map rvar (filter (fun w => negb (str_eqb (var_name w) n)) l) = filter (fun w => negb (str_eqb (var_name w) (rho n))) (map rvar l).
Proof. induction l as [|v l IH]; cbn; [reflexivity|]. rewrite rho_eqb. destruct (negb _); cbn; congruence. Qed.
Lemma ren_add c v : rctx (add_var c v) = add_var (rctx c) (rvar v).
Proof. unfold ren_ctx, add_var. cbn. now rewrite map_app, ren_filter. Qed.
Lemma ren_remove c n : rctx (remove_var c n) = remove_var (rctx c) (rho n).
Proof. unfold ren_ctx, remove_var. cbn. now rewrite ren_filter. Qed.
Lemma ren_remove_first n l : map rvar (remove_first n l) = remove_first (rho n) (map rvar l).
Proof. induction l as [|v l IH]; cbn; [reflexivity|]. rewrite rho_eqb. destruct (str_eqb _ _); cbn; congruence. Qed.
Lemma ren_exists c n : existsb (fun v => str_eqb (var_name v) (rho n)) (vars (rctx c)) = existsb (fun v => str_eqb (var_name v) n) (vars c).
Proof. cbn. induction (vars c) as [|v l IH]; cbn; [reflexivity|]. now rewrite rho_eqb, IH. Qed.
Lemma ren_push acc v : map rvar (push_unshadowed acc v) = push_unshadowed (map rvar acc) (rvar v).
Proof.
  unfold push_unshadowed. assert (E : existsb (fun w => str_eqb (var_name w) (var_name (rvar v))) (map rvar acc) = existsb (fun w => str_eqb (var_name w) (var_name v)) acc).
  { induction acc as [|w acc IH]; cbn; [reflexivity|]. rewrite rho_eqb. f_equal. exact IH. }
  rewrite E. clear E. destruct (existsb (fun w => str_eqb (var_name w) (var_name v)) acc); [reflexivity|]. apply map_app.
Qed.
Lemma ren_call_vars params p outer : map rvar (call_vars params p outer) = call_vars (map rho params) p (map rvar outer).
Proof.
  unfold call_vars.
  assert (E : map (fun nv => mkVar (fst nv) [snd nv]) (combine (map rho params) p) = map rvar (map (fun nv : str * V => mkVar (fst nv) [snd nv]) (combine params p))).
  { revert p. induction params as [|n params IH]; intros [|v p]; cbn; try reflexivity. f_equal. apply IH. }
  rewrite E. generalize (map (fun nv : str * V => mkVar (fst nv) [snd nv]) (combine params p)) as acc. induction outer as [|v outer IH]; intros acc; cbn [fold_left map]; [reflexivity|].
  rewrite IH, ren_push. reflexivity.
Qed.
Lemma ren_add_all x c : rctx (add_all c x) = add_all (rctx c) (map rvar x).
Proof. unfold add_all. revert c. induction x as [|v x IH]; intros c; cbn; [reflexivity|]. now rewrite IH, ren_add. Qed.
Lemma ren_remove_all x c : rctx (remove_all c x) = remove_all (rctx c) (map rvar x).
Proof. unfold remove_all. revert c. induction x as [|v x IH]; intros c; cbn; [reflexivity|]. now rewrite IH, ren_remove. Qed.
Lemma ren_literal (v : V) : ren (ast_from_value v) = ast_from_value v.
Proof.
  destruct v as [m|v|s]; cbn; [|f_equal; induction v; cbn; congruence|reflexivity]. f_equal.
  induction m as [|r m IH]; cbn; [reflexivity|]. f_equal; [|exact IH]. induction r; cbn; congruence.
Qed.
Lemma ren_quotient (x y : V) : ren (quotient_ast x y) = quotient_ast x y.
Proof. unfold quotient_ast. cbn [RenameSpec.ren]. now rewrite !ren_literal. Qed.
Lemma ren_is_operation a : is_operation (ren a) = is_operation a.
Proof. destruct a; reflexivity. Qed.

(** ** Loops *)
Section Loops.
Variables ev ev' : AST N -> Ctx N -> res EvalError (list V).
Hypothesis Hev : forall b c, ev' (ren b) (rctx c) = rres (ev b c).

Lemma Hquot x y c : ev' (quotient_ast x y) (rctx c) = rres (ev (quotient_ast x y) c).
Proof. rewrite <- Hev. now rewrite ren_quotient. Qed.
Lemma integral_loop_ren f e x c vs dx ub b sums :
  integral_loop ev' f (ren e) (rho x) (rctx c) (map rvar vs) dx ub b sums = rres (integral_loop ev f e x c vs dx ub b sums).
Proof.
  revert b sums. induction f as [|f IH]; intros b sums; cbn [integral_loop]; [reflexivity|]. destruct (nltb b ub); [|reflexivity].
  assert (E : mkCtx (map rvar vs ++ [mkVar (rho x) [Scalar (ndiv (nadd b (nsub b dx)) (nof_Z 2))]]) (funs (rctx c)) =
              rctx (mkCtx (vs ++ [mkVar x [Scalar (ndiv (nadd b (nsub b dx)) (nof_Z 2))]]) (funs c))).
  { unfold ren_ctx. cbn. now rewrite map_app. }
  rewrite E, Hev. apply rres_bind. intros es. rewrite <- (keeps_samples sums es) at 1. apply rres_bind. intros s. apply IH.
Qed.
Lemma integral_ren f e x l u c :
  calculate_integral ev' f (ren e) (rho x) l u (rctx c) = rres (calculate_integral ev f e x l u c).
Proof.
  unfold calculate_integral. destruct l; try reflexivity. destruct u; try reflexivity. destruct (neqb _ _); [reflexivity|].
  change (vars (rctx c)) with (map rvar (vars c)). rewrite <- ren_remove_first.
  destruct (nltb _ _); rewrite integral_loop_ren; apply rres_bind; intros sums; symmetry; apply keeps_mapM; intros; apply keeps_mathe.
Qed.
Lemma derivative_ren e x a c :
  fst (calculate_derivative ev' (ren e) (rho x) a (rctx c)) = rres (fst (calculate_derivative ev e x a c)).
Proof.
  unfold calculate_derivative. destruct a as [m|v|s]; try reflexivity.
  set (c1 := add_var (remove_var c x) (mkVar x [Scalar s])).
  assert (E1 : add_var (remove_var (rctx c) (rho x)) (mkVar (rho x) [Scalar s]) = rctx c1) by (unfold c1; now rewrite ren_add, ren_remove).
  rewrite E1.
  set (c2 := add_var (remove_var c1 x) (mkVar x [Scalar (nadd s eps)])).
  assert (E2 : add_var (remove_var (rctx c1) (rho x)) (mkVar (rho x) [Scalar (nadd s eps)]) = rctx c2) by (unfold c2; now rewrite ren_add, ren_remove).
  rewrite E2, !Hev. destruct (ev e c1) as [fxs|er| |]; cbn [ren_result map_err]; try reflexivity.
  destruct (ev e c2) as [fxhs|er| |]; cbn [ren_result map_err]; try reflexivity.
  destruct (negb _); [reflexivity|].
  rewrite (rres_mapM (fun p => ev (quotient_ast (snd p) (fst p)) c2)) by (intros; apply Hquot).
  match goal with |- context [mapM ?f ?l] => destruct (mapM f l) end; reflexivity.
Qed.
Lemma derivative_newton_ren e x a fx c :
  calculate_derivative_newton ev' (ren e) (rho x) a fx (rctx c) = rres (calculate_derivative_newton ev e x a fx c).
Proof.
  unfold calculate_derivative_newton. destruct a as [m|v|s]; try reflexivity.
  rewrite <- ren_remove. change (mkVar (rho x) [Scalar s]) with (rvar (mkVar x [Scalar s])).
  change (mkVar (rho x) [Scalar (nadd s eps)]) with (rvar (mkVar x [Scalar (nadd s eps)])). rewrite <- !ren_add, !Hev.
  assert (E : (match fx with Some v => Ok v | None => do vs <- rres (ev e (add_var (remove_var c x) (mkVar x [Scalar s]))); idx vs 0 end) =
    rres (match fx with Some v => Ok v | None => do vs <- ev e (add_var (remove_var c x) (mkVar x [Scalar s])); idx vs 0 end)).
  { destruct fx; [reflexivity|]. apply rres_bind. intros; symmetry; apply rres_idx. }
  rewrite E. apply rres_bind. intros v. apply rres_bind. intros vs. rewrite <- (rres_idx vs 0) at 1. apply rres_bind. intros w. rewrite Hquot. apply rres_bind. intros; symmetry; apply rres_idx.
Qed.
Lemma rmap_bind {A B C} (r : res EvalError A) (g : A -> B) (f : B -> res EvalError C) : bind (rmap g r) f = bind r (fun a => f (g a)).
Proof. destruct r; reflexivity. Qed.
Lemma keep_bind {A B} (r : res EvalError A) (f f' : A -> res EvalError B) : keeps r -> (forall a, f' a = rres (f a)) -> bind r f' = rres (bind r f).
Proof. intros Hr Hf. rewrite <- Hr at 1. now apply rres_bind. Qed.
Lemma first_scalar_ren v : first_scalar (rvar v) = @first_scalar N v.
Proof. reflexivity. Qed.
Lemma mapM_rmap {A B C} (f : A -> res EvalError B) (g : B -> C) l : mapM (fun a => rmap g (f a)) l = rmap (map g) (mapM f l).
Proof. induction l as [|x l IH]; cbn [mapM]; [reflexivity|]. rewrite IH. destruct (f x); cbn; try reflexivity. destruct (mapM f l); reflexivity. Qed.
Lemma jacobi_ren s x c fx :
  jacobi_and_gauss ev' (map ren s) (map rvar x) (rctx c) fx = rmap (map rvar) (rres (jacobi_and_gauss ev s x c fx)).
Proof.
  unfold jacobi_and_gauss. rewrite !map_length.
  match goal with |- bind ?m _ = rmap _ (rres (bind ?n _)) => assert (E : m = rres n) end.
  { apply rres_mapM. intros i _. rewrite idx_map, rmap_bind. apply keep_bind; [apply keeps_idx|]. intros e.
    match goal with |- bind ?m _ = rres (bind ?n _) => assert (E : m = rres n) end.
    { apply rres_mapM. intros j _. rewrite idx_map, rmap_bind. apply keep_bind; [apply keeps_idx|]. intros xj. cbn [ren_var var_values var_name].
      apply keep_bind; [apply keeps_idx|]. intros at_. apply keep_bind; [apply keeps_idx|]. intros f.
      assert (Ec : mkCtx (vars (rctx c) ++ others j (map rvar x)) (funs (rctx c)) = rctx (mkCtx (vars c ++ others j x) (funs c))).
      { unfold ren_ctx, others. cbn [vars funs]. now rewrite !map_app, firstn_map, skipn_map. }
      rewrite Ec, derivative_newton_ren. apply rres_bind. intros d. symmetry. apply rres_unwrap. }
    rewrite E. now apply rres_bind. }
  rewrite E. clear E. destruct (mapM _ (seq 0 (List.length s))) as [jac|?| |]; cbn [ren_result map_err bind rmap]; try reflexivity.
  match goal with |- bind ?m _ = _ => assert (K : keeps m) by keeps; destruct m as [aug|er| |]; cbn [bind]; try reflexivity; [|cbn [ren_result map_err rmap bind]; f_equal; unfold keeps, ren_result in K; cbn in K; congruence] end.
  pose proof (keeps_gauss aug) as K2. destruct (gauss_algorithm aug) as [delta|er| |]; cbn [bind]; try reflexivity; [|cbn [ren_result map_err rmap bind]; f_equal; unfold keeps, ren_result in K2; cbn in K2; congruence].
  set (g := fun i => do xi <- idx x i; do d <- idx delta i; do s0 <- first_scalar xi; Ok (mkVar (var_name xi) [Scalar (nadd d s0)])).
  assert (Kg : keeps (mapM g (seq 0 (List.length x)))) by (unfold g, first_scalar; keeps). rewrite Kg, <- mapM_rmap.
  unfold g. clear. apply mapM_ext. intros i _. rewrite idx_map. destruct (@idx EvalError _ x i); cbn; try reflexivity. destruct (@idx EvalError _ delta i); cbn; try reflexivity.
  rewrite first_scalar_ren. destruct (first_scalar a); reflexivity.
Qed.

Lemma eval_scalar_ren c e : eval_scalar ev' (rctx c) (ren e) = rres (eval_scalar ev c e).
Proof. unfold eval_scalar. rewrite Hev. apply rres_bind. intros vs. apply keep_bind; [apply keeps_idx|]. intros v. symmetry. apply rres_unwrap. Qed.
Lemma eval_scalars_ren c l : mapM (eval_scalar ev' (rctx c)) (map ren l) = rres (mapM (eval_scalar ev c) l).
Proof. induction l as [|e l IH]; cbn [mapM map]; [reflexivity|]. rewrite eval_scalar_ren. apply rres_bind. intros y. rewrite IH. now apply rres_bind. Qed.
Definition rnr (n : NewtonReturn) : NewtonReturn :=
  match n with NextX x => NextX (map rvar x) | FinishedX x => FinishedX (map rvar x) end.
Definition rnewton (p : res EvalError NewtonReturn * Ctx N) := (rmap rnr (rres (fst p)), rctx (snd p)).
Lemma bad_ren (l : list (MVar N)) :
  mapM (fun i => do v <- @idx EvalError _ (var_values i) 0; Ok (is_inf_or_nan v)) (map rvar l) =
  mapM (fun i => do v <- @idx EvalError _ (var_values i) 0; Ok (is_inf_or_nan v)) l.
Proof. induction l as [|x l IH]; cbn [mapM map]; [reflexivity|]. rewrite IH. reflexivity. Qed.
Lemma bad_keeps (l : list (MVar N)) : keeps (mapM (fun i => do v <- @idx EvalError _ (var_values i) 0; Ok (is_inf_or_nan v)) l).
Proof. keeps. Qed.
Lemma newton_ren search check x c :
  newton ev' (map ren search) (map ren check) (map rvar x) (rctx c) = rnewton (newton ev search check x c).
Proof.
  unfold newton. rewrite <- ren_add_all, eval_scalars_ren. destruct (mapM (eval_scalar ev (add_all c x)) search) as [fx|e| |]; cbn [ren_result map_err]; try reflexivity.
  rewrite <- ren_remove_all. set (c2 := remove_all (add_all c x) x). destruct (small fx).
  - rewrite <- ren_add_all, eval_scalars_ren. destruct (mapM (eval_scalar ev (add_all c2 x)) check) as [cr|e| |]; cbn [ren_result map_err]; try reflexivity.
    rewrite <- ren_remove_all. destruct cr as [|r cr]; [reflexivity|]. destruct (small (r :: cr)); reflexivity.
  - rewrite jacobi_ren. destruct (jacobi_and_gauss ev search x c2 fx) as [nx|e| |]; cbn [ren_result map_err rmap bind]; try reflexivity.
    rewrite bad_ren. pose proof (bad_keeps nx) as K. destruct (mapM _ nx) as [bad|e| |]; try reflexivity.
    + destruct (existsb _ bad); reflexivity.
    + unfold rnewton. cbn [fst snd ren_result map_err rmap bind]. f_equal. unfold keeps, ren_result in K. cbn [map_err] in K. congruence.
Qed.
Lemma first_scalars_ren (l : list (MVar N)) : mapM first_scalar (map rvar l) = mapM (@first_scalar N) l.
Proof. induction l as [|x l IH]; cbn [mapM map]; [reflexivity|]. rewrite IH. reflexivity. Qed.
Definition rtriple (t : option V * bool * Ctx N) := (fst t, rctx (snd t)).
Lemma newton_loop_ren n search check x c :
  newton_loop ev' n (map ren search) (map ren check) (map rvar x) (rctx c) = rmap rtriple (rres (newton_loop ev n search check x c)).
Proof.
  revert x c. induction n as [|n IH]; intros x c; cbn [newton_loop]; [reflexivity|]. rewrite newton_ren.
  destruct (newton ev search check x c) as [r c']. unfold rnewton. cbn [fst snd]. destruct r as [[x'|x']|e| |]; cbn [ren_result map_err rmap bind rnr]; try reflexivity.
  - apply IH.
  - rewrite first_scalars_ren. assert (K : keeps (mapM (@first_scalar N) x')) by (unfold first_scalar; keeps).
    destruct (mapM first_scalar x') as [rs|e| |]; cbn [bind]; try reflexivity.
    + destruct rs as [|s [|s' rs]]; reflexivity.
    + cbn [ren_result map_err rmap bind]. unfold keeps, ren_result in K. cbn [map_err] in K. congruence.
  - destruct e; reflexivity.
Qed.
Lemma start_loop_ren js search check sv c results :
  start_loop ev' js (map ren search) (map ren check) (map rho sv) (rctx c) results = rres (start_loop ev js search check sv c results).
Proof.
  revert c results. induction js as [|j js IH]; intros c results; cbn [start_loop]; [reflexivity|].
  assert (E : map (fun k => mkVar k [Scalar (nof_Z j)]) (map rho sv) = map rvar (map (fun k => mkVar k [@Scalar N (nof_Z j)]) sv)) by (rewrite !map_map; reflexivity).
  rewrite E. clear E. generalize 1000 as n. intros n. rewrite newton_loop_ren. destruct (newton_loop ev n search check (map (fun k => mkVar k [Scalar (nof_Z j)]) sv) c) as [[[v b] c']|e| |]; cbn [ren_result map_err rmap bind]; try reflexivity.
  unfold rtriple. cbn [fst snd]. destruct b; [reflexivity|]. apply IH.
Qed.
Lemma split_ren es comb :
  split_exprs (map ren es) comb = rmap (fun p => (map ren (fst p), map ren (snd p))) (rres (@split_exprs N es comb)).
Proof.
  unfold split_exprs.
  assert (G : forall comb se ch rm,
    (do s <- foldM (fun (s : list (AST N) * list (AST N) * nat) j => let '(search, check, removed) := s in
            if Nat.ltb j removed then Panic else do xr <- take_at (j - removed) check; Ok (search ++ [fst xr], snd xr, S removed)) comb (map ren se, map ren ch, rm); Ok (fst s)) =
    rmap (fun p => (map ren (fst p), map ren (snd p))) (rres (
    do s <- foldM (fun (s : list (AST N) * list (AST N) * nat) j => let '(search, check, removed) := s in
            if Nat.ltb j removed then Panic else do xr <- take_at (j - removed) check; Ok (search ++ [fst xr], snd xr, S removed)) comb (se, ch, rm); Ok (fst s)))).
  2: exact (G comb [] es 0). clear comb es.
  induction comb as [|j comb IH]; intros se ch rm; cbn [foldM bind]; [reflexivity|].
  destruct (Nat.ltb j rm); [reflexivity|]. unfold take_at. rewrite idx_map. destruct (@idx EvalError _ ch (j - rm)) as [x|e| |] eqn:Ei; cbn [rmap bind fst snd ren_result map_err]; try reflexivity.
  - rewrite <- IH. rewrite firstn_map, skipn_map. now rewrite !map_app.
  - exfalso. unfold idx in Ei. destruct (nth_error ch (j - rm)); discriminate.
Qed.
Lemma comb_loop_ren combs es c sv : comb_loop ev' combs (map ren es) (rctx c) (map rho sv) = rres (comb_loop ev combs es c sv).
Proof.
  induction combs as [|i combs IH]; cbn [comb_loop]; [reflexivity|]. rewrite split_ren.
  generalize starts as js. intros js. destruct (split_exprs es i) as [[se ch]|e| |]; cbn [ren_result map_err rmap bind fst snd]; try reflexivity.
  rewrite start_loop_ren. apply rres_bind. intros rs. apply keep_bind; [apply keeps_clean|]. intros [|v l]; [exact IH|reflexivity].
Qed.
Lemma probe_ren sv c : fold_left (fun c n => add_var c (mkVar n [Scalar nprobe])) (map rho sv) (rctx c) = rctx (fold_left (fun c n => add_var c (mkVar n [Scalar nprobe])) sv c).
Proof. revert c. induction sv as [|n sv IH]; intros c; cbn [fold_left map]; [reflexivity|]. rewrite <- IH, ren_add. reflexivity. Qed.
Lemma unprobe_ren sv c : fold_left remove_var (map rho sv) (rctx c) = rctx (fold_left remove_var sv c).
Proof. revert c. induction sv as [|n sv IH]; intros c; cbn [fold_left map]; [reflexivity|]. now rewrite <- IH, ren_remove. Qed.
Lemma existsb_sv sv c : existsb (fun n => existsb (fun v => str_eqb (var_name v) n) (vars (rctx c))) (map rho sv) = existsb (fun n => existsb (fun v => str_eqb (var_name v) n) (vars c)) sv.
Proof. induction sv as [|n sv IH]; cbn [existsb map]; [reflexivity|]. now rewrite ren_exists, IH. Qed.
Definition rrf (r : RootFinder) : RootFinder := mkRF (map ren (rf_expressions r)) (rf_combinations r) (rctx (rf_context r)) (map rho (rf_search_vars r)).
Lemma rf_new_ren es c sv : rf_new ev' (map ren es) (rctx c) (map rho sv) = rmap rrf (rres (rf_new ev es c sv)).
Proof.
  destruct es as [|e0 es]; [reflexivity|].
  assert (Ef : forall l, forallb is_operation (map ren l) = forallb is_operation l).
  { induction l as [|x l IH]; cbn [forallb map]; [reflexivity|]. now rewrite ren_is_operation, IH. }
  unfold rf_new. change (map ren (e0 :: es)) with (ren e0 :: map ren es) at 1. cbv iota. rewrite Ef. destruct (negb _); [reflexivity|].
  rewrite existsb_sv. destruct (existsb _ sv); [reflexivity|]. rewrite !map_length. destruct (Nat.ltb _ _); [reflexivity|].
  rewrite probe_ren, Hev, unprobe_ren. destruct (ev e0 _) as [vs|e| |]; cbn [ren_result map_err rmap bind]; try reflexivity.
  unfold idx. destruct (nth_error vs 0) as [[m|v|s]|]; cbn [bind]; reflexivity.
Qed.
Lemma solve_ren es c sv :
  bind (rf_new ev' (map ren es) (rctx c) (map rho sv)) (find_roots ev') = rres (bind (rf_new ev es c sv) (find_roots ev)).
Proof.
  rewrite rf_new_ren. destruct (rf_new ev es c sv) as [rf|e| |]; cbn [ren_result map_err rmap bind]; try reflexivity.
  unfold find_roots, rrf. cbn [rf_combinations rf_expressions rf_context rf_search_vars]. apply comb_loop_ren.
Qed.
End Loops.

Lemma concatM_keep {A B} (f f' : A -> res EvalError (list B)) l : (forall a, f' a = rres (f a)) -> concatM f' l = rres (concatM f l).
Proof. intros. now apply rres_concatM. Qed.
End Rename.

Section Main.
Context {N : Num} {En : Env}.
Notation V := (Value N).
Variables rho sigma : str -> str.
Hypothesis rho_inj : injective rho.
Hypothesis sigma_inj : injective sigma.
Hypothesis sigma_nil : sigma [] = [].
Notation ren := (ren rho sigma).
Notation rvar := (ren_var rho).
Notation rctx := (ren_ctx rho sigma).
Notation rres := (ren_result rho sigma).
Notation rerr := (ren_error rho sigma).
Theorem eval_ren f a c l : eval_rec f (ren a) (rctx c) (sigma l) = rres (eval_rec f a c l).
Proof.
  revert a c l. induction f as [|f IH]; intros a c l; [reflexivity|].
  assert (Hev : forall b c, eval_rec f (ren b) (rctx c) [] = rres (eval_rec f b c [])).
  { intros b c0. rewrite <- IH. now rewrite sigma_nil. }
  destruct a as [s|v|m|el|n|name inputs|op le r|e x lb ub|e x at_|qs xs]; cbn [RenameSpec.ren eval_rec]; try reflexivity.
  - assert (E : forall v, mapM (fun i => do vs <- eval_rec f i (rctx c) (sigma l); scalars_or NonScalarInVector vs) (map ren v) =
      rres (mapM (fun i => do vs <- eval_rec f i c l; scalars_or NonScalarInVector vs) v)).
    { induction v0 as [|i v0 IHv]; cbn [mapM map]; [reflexivity|]. rewrite IHv, IH.
      rewrite (rres_bind rho sigma (eval_rec f i c l) (fun vs => scalars_or NonScalarInVector vs)) by (intros vs; symmetry; now apply keeps_scalars).
      apply rres_bind. intros y. now apply rres_bind. }
    rewrite E. now apply rres_bind.
  - assert (E : forall r, mapM (fun i => do vs <- eval_rec f i (rctx c) (sigma l); scalars_or NonScalarInMatrix vs) (map ren r) =
      rres (mapM (fun i => do vs <- eval_rec f i c l; scalars_or NonScalarInMatrix vs) r)).
    { induction r as [|i v0 IHv]; cbn [mapM map]; [reflexivity|]. rewrite IHv, IH.
      rewrite (rres_bind rho sigma (eval_rec f i c l) (fun vs => scalars_or NonScalarInMatrix vs)) by (intros vs; symmetry; now apply keeps_scalars).
      apply rres_bind. intros y. now apply rres_bind. }
    assert (E2 : forall m, mapM (mapM (fun i => do vs <- eval_rec f i (rctx c) (sigma l); scalars_or NonScalarInMatrix vs)) (map (map ren) m) =
      rres (mapM (mapM (fun i => do vs <- eval_rec f i c l; scalars_or NonScalarInMatrix vs)) m)).
    { induction m0 as [|r m0 IHm]; cbn [mapM map]; [reflexivity|]. rewrite E, IHm. apply rres_bind. intros y. now apply rres_bind. }
    rewrite E2. now apply rres_bind.
  - unfold concatM. assert (E : mapM (fun e => eval_rec f e (rctx c) (sigma l)) (map ren el) = rres (mapM (fun e => eval_rec f e c l) el)).
    { induction el as [|i el IHe]; cbn [mapM map]; [reflexivity|]. rewrite IH, IHe. apply rres_bind. intros y. now apply rres_bind. }
    rewrite E. now apply rres_bind.
  - rewrite ren_lookup by assumption. destruct (lookup_var c n); reflexivity.
  - rewrite sigma_eqb by assumption. destruct (str_eqb l name); [reflexivity|]. rewrite ren_lookup_fun by assumption. destruct (lookup_fun c name) as [fn|]; cbn [option_map]; [|reflexivity].
    cbn [ren_fun fun_inputs fun_ast]. rewrite !map_length. destruct (negb _); [reflexivity|].
    assert (E : mapM (fun e => eval_rec f e (rctx c) (sigma l)) (map ren inputs) = rres (mapM (fun e => eval_rec f e c l) inputs)).
    { induction inputs as [|i el IHe]; cbn [mapM map]; [reflexivity|]. rewrite IH, IHe. apply rres_bind. intros y. now apply rres_bind. }
    rewrite E. apply rres_bind. intros args. apply concatM_keep. intros p. rewrite <- IH. f_equal. unfold ren_ctx. cbn [vars funs]. now rewrite ren_call_vars by assumption.
  - rewrite !IH. apply rres_bind. intros lv. apply rres_bind. intros rv. apply concatM_keep. intros i. apply concatM_keep. intros j. symmetry. apply keeps_apply.
  - rewrite !IH. apply rres_bind. intros lv. apply rres_bind. intros rv. apply concatM_keep. intros i. apply concatM_keep. intros j. now apply integral_ren.
  - rewrite !IH. apply rres_bind. intros lv. apply concatM_keep. intros i. now apply derivative_ren.
  - assert (E : map (fun i => AOp OSub (fst i) (snd i)) (map (fun q => (ren (fst q), ren (snd q))) qs) = map ren (map (fun i => AOp OSub (fst i) (snd i)) qs)) by (rewrite !map_map; reflexivity).
    rewrite E. now apply solve_ren.
Qed.
End Main.
