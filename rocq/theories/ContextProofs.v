(** * ContextProofs: contexts as maps, and evaluation depends on a context only
    through the bindings of the names that occur. *)
From Coq Require Import List NArith ZArith Bool Lia Arith String.
From Verif Require Import Base BaseFacts F64 Num Types Maths Helpers Parser Eval EvalFuel SpecEval EvalProofs.
Import ListNotations.

Section Mentions.
Context {N : Num}.
(** Variable names occurring in an AST (including the variables of integrals,
    derivatives and equations). *)
Fixpoint mentions (a : AST N) : list str :=
  match a with
  | AScalar _ => []
  | AVar n => [n]
  | AVector v => flat_map mentions v
  | AMatrix m => flat_map (fun r => flat_map mentions r) m
  | AList l => flat_map mentions l
  | AFun _ inputs => flat_map mentions inputs
  | AOp _ l r => mentions l ++ mentions r
  | AInt e x l u => x :: mentions e ++ mentions l ++ mentions u
  | ADer e x at_ => x :: mentions e ++ mentions at_
  | AEq eqs sv => sv ++ flat_map (fun e => mentions (fst e) ++ mentions (snd e)) eqs
  end.
End Mentions.

Section Agree.
Context {N : Num} {En : Env}.
Notation V := (Value N).
(** The names that matter, and how the function definitions are related. *)
Variable S : str -> Prop.
Variable Fn : list (MFun N) -> list (MFun N) -> Prop.

Definition named (n : str) (l : list (MVar N)) : list (MVar N) :=
  filter (fun v => str_eqb (var_name v) n) l.

Definition within (b : AST N) : Prop := forall n, In n (mentions b) -> S n.

Definition agree (c1 c2 : Ctx N) : Prop :=
  (forall n, S n -> named n (vars c1) = named n (vars c2)) /\
  Fn (funs c1) (funs c2).

Lemma named_app n l1 l2 : named n (l1 ++ l2) = named n l1 ++ named n l2.
Proof. apply filter_app. Qed.

Lemma lookup_named c n : lookup_var c n = hd_error (named n (vars c)).
Proof.
  unfold lookup_var, named. induction (vars c) as [|v l IH]; cbn; [reflexivity|].
  destruct (str_eqb (var_name v) n); [reflexivity|exact IH].
Qed.

Lemma named_removed n x l :
  named n (filter (fun w => negb (str_eqb (var_name w) x)) l) = if str_eqb n x then [] else named n l.
Proof.
  unfold named. induction l as [|v l IH]; cbn; [now destruct (str_eqb n x)|].
  destruct (str_eqb (var_name v) x) eqn:E1; cbn.
  - rewrite IH. destruct (str_eqb_spec n x) as [->|H]; [reflexivity|].
    destruct (str_eqb_spec (var_name v) n) as [E2|]; [|reflexivity].
    apply str_eqb_eq in E1; congruence.
  - destruct (str_eqb_spec (var_name v) n) as [E2|E2]; rewrite IH; [|reflexivity].
    destruct (str_eqb_spec n x) as [->|H]; [|reflexivity].
    rewrite E2, str_eqb_refl in E1; discriminate.
Qed.

Lemma named_add_var n c v :
  named n (vars (add_var c v)) = if str_eqb (var_name v) n then [v] else named n (vars c).
Proof.
  cbn [add_var vars]. rewrite named_app, named_removed, str_eqb_sym. unfold named at 2; cbn.
  destruct (str_eqb (var_name v) n); [reflexivity|apply app_nil_r].
Qed.

Lemma named_remove_var n c x :
  named n (vars (remove_var c x)) = if str_eqb n x then [] else named n (vars c).
Proof. apply named_removed. Qed.

Lemma named_remove_first n x l :
  named n (remove_first x l) = if str_eqb n x then tl (named n l) else named n l.
Proof.
  unfold named. induction l as [|v l IH]; cbn; [now destruct (str_eqb n x)|].
  destruct (str_eqb_spec (var_name v) x) as [E1|E1].
  - destruct (str_eqb_spec (var_name v) n) as [E2|E2].
    + rewrite <- E2, <- E1, str_eqb_refl. cbn. reflexivity.
    + destruct (str_eqb_spec n x) as [->|H]; [contradiction|reflexivity].
  - cbn. destruct (str_eqb_spec (var_name v) n) as [E2|E2]; rewrite IH.
    + destruct (str_eqb_spec n x) as [->|H]; [contradiction|reflexivity].
    + reflexivity.
Qed.

Lemma named_call_vars n params p outer :
  named n (call_vars params p outer) =
  match named n (map (fun nv => mkVar (fst nv) [snd nv]) (combine params p)) with
  | [] => match named n outer with [] => [] | v :: _ => [v] end
  | l => l
  end.
Proof.
  unfold call_vars. generalize (map (fun nv => mkVar (fst nv) [snd nv]) (combine params p) : list (MVar N)) as acc.
  induction outer as [|w outer IH]; intros acc; cbn [fold_left].
  - destruct (named n acc); reflexivity.
  - rewrite IH. unfold push_unshadowed.
    assert (Hex : existsb (fun v => str_eqb (var_name v) (var_name w)) acc =
                  match named (var_name w) acc with [] => false | _ => true end).
    { clear. unfold named. induction acc as [|v acc IH]; cbn; [reflexivity|].
      destruct (str_eqb (var_name v) (var_name w)); [reflexivity|exact IH]. }
    rewrite Hex. destruct (str_eqb_spec (var_name w) n) as [<-|Hn].
    + destruct (named (var_name w) acc) eqn:Ea; [|now rewrite Ea].
      rewrite named_app, Ea. cbn. now rewrite str_eqb_refl.
    + assert (E : str_eqb (var_name w) n = false) by now apply str_eqb_neq.
      cbn. rewrite E. destruct (named (var_name w) acc); [|reflexivity].
      rewrite named_app. cbn. rewrite E, app_nil_r. reflexivity.
Qed.

Lemma agree_add_var c1 c2 v : agree c1 c2 -> agree (add_var c1 v) (add_var c2 v).
Proof. intros [H1 H2]; split; [|exact H2]. intros n Hn. rewrite !named_add_var. destruct (str_eqb _ _); auto. Qed.
Lemma agree_remove_var c1 c2 x : agree c1 c2 -> agree (remove_var c1 x) (remove_var c2 x).
Proof. intros [H1 H2]; split; [|exact H2]. intros n Hn. rewrite !named_remove_var. destruct (str_eqb _ _); auto. Qed.
Lemma agree_app c1 c2 l1 l2 l fs1 fs2 :
  agree (mkCtx l1 fs1) (mkCtx l2 fs2) -> fs1 = funs c1 -> fs2 = funs c2 ->
  agree (mkCtx (l1 ++ l) (funs c1)) (mkCtx (l2 ++ l) (funs c2)).
Proof.
  intros [H1 H2] -> ->; split; [|exact H2]. intros n Hn; cbn [vars] in *. rewrite !named_app. f_equal; auto.
Qed.
Lemma agree_remove_first c1 c2 x :
  agree c1 c2 -> agree (mkCtx (remove_first x (vars c1)) (funs c1)) (mkCtx (remove_first x (vars c2)) (funs c2)).
Proof.
  intros [H1 H2]; split; [|exact H2]. intros n Hn; cbn [vars]. rewrite !named_remove_first, (H1 n Hn). reflexivity.
Qed.
Lemma agree_call c1 c2 ps p :
  agree c1 c2 -> agree (mkCtx (call_vars ps p (vars c1)) (funs c1)) (mkCtx (call_vars ps p (vars c2)) (funs c2)).
Proof.
  intros [H1 H2]; split; [|exact H2]. intros n Hn; cbn [vars]. rewrite !named_call_vars, (H1 n Hn). reflexivity.
Qed.
Lemma agree_add_all c1 c2 x : agree c1 c2 -> agree (add_all c1 x) (add_all c2 x).
Proof. revert c1 c2; induction x as [|v x IH]; intros; cbn; auto. apply IH, agree_add_var; auto. Qed.
Lemma agree_remove_all c1 c2 x : agree c1 c2 -> agree (remove_all c1 x) (remove_all c2 x).
Proof. revert c1 c2; induction x as [|v x IH]; intros; cbn; auto. apply IH, agree_remove_var; auto. Qed.

Lemma agree_exists c1 c2 n : agree c1 c2 -> S n ->
  existsb (fun v => str_eqb (var_name v) n) (vars c1) = existsb (fun v => str_eqb (var_name v) n) (vars c2).
Proof.
  intros [H _] Hn. specialize (H n Hn). unfold named in H.
  assert (E : forall l : list (MVar N), existsb (fun v => str_eqb (var_name v) n) l =
     match filter (fun v => str_eqb (var_name v) n) l with [] => false | _ => true end).
  { induction l as [|v l IH]; cbn; [reflexivity|]. destruct (str_eqb (var_name v) n); [reflexivity|exact IH]. }
  now rewrite !E, H.
Qed.

Section Higher.
Variable ev : AST N -> Ctx N -> res EvalError (list V).
Hypothesis Hev : forall b c1 c2, within b -> agree c1 c2 -> ev b c1 = ev b c2.

Lemma within_quotient x y : within (quotient_ast x y).
Proof.
  assert (H : forall v : V, mentions (ast_from_value v) = []).
  { intros [m|v|s]; cbn; [| |reflexivity].
    - induction m as [|r m IH]; cbn; [reflexivity|]. rewrite IH, app_nil_r.
      induction r; cbn; auto.
    - induction v; cbn; auto. }
  intros n. cbn. now rewrite !H.
Qed.

Lemma integral_loop_agree f e x c1 c2 dx ub b sums :
  within e -> agree c1 c2 ->
  integral_loop ev f e x c1 (remove_first x (vars c1)) dx ub b sums =
  integral_loop ev f e x c2 (remove_first x (vars c2)) dx ub b sums.
Proof.
  intros He Hc; revert b sums; induction f as [|f IH]; intros; cbn [integral_loop]; [reflexivity|].
  destruct (nltb b ub); [|reflexivity].
  rewrite (Hev e _ (mkCtx (remove_first x (vars c2) ++ [mkVar x [Scalar (ndiv (nadd b (nsub b dx)) (nof_Z 2))]]) (funs c2)));
    [|exact He|].
  - destruct (ev _ _); cbn [bind]; try reflexivity. destruct (add_samples sums a); cbn [bind]; auto.
  - eapply agree_app; [apply agree_remove_first, Hc|reflexivity|reflexivity].
Qed.

Lemma integral_agree f e x l u c1 c2 :
  within e -> agree c1 c2 -> calculate_integral ev f e x l u c1 = calculate_integral ev f e x l u c2.
Proof.
  intros He Hc. unfold calculate_integral. destruct l, u; try reflexivity.
  destruct (neqb _ _); [reflexivity|]. destruct (nltb _ _); now rewrite (integral_loop_agree _ _ _ c1 c2).
Qed.

Lemma derivative_agree e x a c1 c2 :
  within e -> agree c1 c2 ->
  fst (calculate_derivative ev e x a c1) = fst (calculate_derivative ev e x a c2).
Proof.
  intros He Hc. unfold calculate_derivative. destruct a; try reflexivity.
  rewrite (Hev e _ (add_var (remove_var c2 x) (mkVar x [Scalar s])))
    by (auto using agree_add_var, agree_remove_var).
  destruct (ev e _); try reflexivity.
  rewrite (Hev e _ (add_var (remove_var (add_var (remove_var c2 x) (mkVar x [Scalar s])) x) (mkVar x [Scalar (nadd s eps)])))
    by (auto using agree_add_var, agree_remove_var).
  destruct (ev e _); try reflexivity.
  destruct (negb _); [reflexivity|].
  match goal with |- context [mapM ?f (combine a a0)] =>
    match goal with |- _ = fst (match mapM ?g (combine a a0) with _ => _ end) =>
      assert (E : mapM f (combine a a0) = mapM g (combine a a0)) end end.
  { apply mapM_ext. intros p _. apply Hev; [apply within_quotient|auto 10 using agree_add_var, agree_remove_var]. }
  rewrite E. match goal with |- context [mapM ?f ?l] => destruct (mapM f l) end; reflexivity.
Qed.

Lemma derivative_newton_agree e x a fx c1 c2 :
  within e -> agree c1 c2 ->
  calculate_derivative_newton ev e x a fx c1 = calculate_derivative_newton ev e x a fx c2.
Proof.
  intros He Hc. unfold calculate_derivative_newton. destruct a; try reflexivity.
  assert (E1 : forall v, ev e (add_var (remove_var c1 x) v) = ev e (add_var (remove_var c2 x) v))
    by (intros; apply Hev; auto using agree_add_var, agree_remove_var).
  destruct fx; cbn [bind]; rewrite ?E1.
  - destruct (ev e _); cbn [bind]; try reflexivity. destruct (idx a 0); cbn [bind]; try reflexivity.
    erewrite Hev; [reflexivity|apply within_quotient|auto using agree_add_var, agree_remove_var].
  - destruct (ev e _); cbn [bind]; try reflexivity. destruct (idx a 0); cbn [bind]; try reflexivity.
    destruct (ev e _); cbn [bind]; try reflexivity. destruct (idx a1 0); cbn [bind]; try reflexivity.
    erewrite Hev; [reflexivity|apply within_quotient|auto using agree_add_var, agree_remove_var].
Qed.

Lemma bind_ext {E A B} (r : res E A) (f g : A -> res E B) :
  (forall a, r = Ok a -> f a = g a) -> bind r f = bind r g.
Proof. destruct r; cbn; auto. Qed.

Lemma jacobi_agree s x c1 c2 fx :
  Forall within s -> agree c1 c2 -> jacobi_and_gauss ev s x c1 fx = jacobi_and_gauss ev s x c2 fx.
Proof.
  intros Hs Hc. unfold jacobi_and_gauss.
  match goal with |- bind (mapM ?f ?l) _ = bind (mapM ?g ?l) _ => assert (E : mapM f l = mapM g l) end.
  { apply mapM_ext. intros i _. apply bind_ext. intros e He. f_equal. apply mapM_ext. intros j _.
    apply bind_ext; intros xj _. apply bind_ext; intros at_ _. apply bind_ext; intros f _.
    rewrite (derivative_newton_agree _ _ _ _ (mkCtx (vars c1 ++ others j x) (funs c1))
               (mkCtx (vars c2 ++ others j x) (funs c2))); [reflexivity| |].
    - eapply Forall_forall; [exact Hs|]. unfold idx in He. destruct (nth_error s i) eqn:Enx; [|discriminate].
      injection He as <-. eapply nth_error_In, Enx.
    - eapply agree_app; [|reflexivity|reflexivity]. destruct c1, c2; exact Hc. }
  rewrite E. reflexivity.
Qed.

Lemma eval_scalar_agree c1 c2 e : within e -> agree c1 c2 -> eval_scalar ev c1 e = eval_scalar ev c2 e.
Proof. intros. unfold eval_scalar. now rewrite (Hev e c1 c2). Qed.

Lemma mapM_eval_scalar_agree c1 c2 l : Forall within l -> agree c1 c2 ->
  mapM (eval_scalar ev c1) l = mapM (eval_scalar ev c2) l.
Proof.
  intros Hl Hc. apply mapM_ext. intros e He. apply eval_scalar_agree; auto. eapply Forall_forall; eauto.
Qed.

Lemma newton_agree s k x c1 c2 :
  Forall within s -> Forall within k -> agree c1 c2 ->
  fst (newton ev s k x c1) = fst (newton ev s k x c2) /\ agree (snd (newton ev s k x c1)) (snd (newton ev s k x c2)).
Proof.
  intros Hs Hk Hc. unfold newton.
  assert (H1 := agree_add_all _ _ x Hc). assert (H2 := agree_remove_all _ _ x H1).
  assert (H3 := agree_add_all _ _ x H2). assert (H4 := agree_remove_all _ _ x H3).
  rewrite (mapM_eval_scalar_agree _ _ s Hs H1).
  destruct (mapM (eval_scalar ev (add_all c2 x)) s) as [fx|e| |]; try (split; [reflexivity|assumption]).
  destruct (small fx).
  - rewrite (mapM_eval_scalar_agree _ _ k Hk H3).
    destruct (mapM _ k) as [cr|e| |]; try (split; [reflexivity|assumption]).
    destruct cr; [split; [reflexivity|assumption]|]. destruct (small _); split; auto.
  - rewrite (jacobi_agree s x _ _ fx Hs H2).
    destruct (jacobi_and_gauss _ _ _ _ _); try (split; [reflexivity|assumption]).
    destruct (mapM _ _); try (split; [reflexivity|assumption]).
    destruct (existsb _ _); split; auto.
Qed.

Lemma newton_loop_agree n s k x c1 c2 :
  Forall within s -> Forall within k -> agree c1 c2 ->
  match newton_loop ev n s k x c1, newton_loop ev n s k x c2 with
  | Ok a, Ok b => fst a = fst b /\ agree (snd a) (snd b)
  | Err e, Err e' => e = e'
  | Panic, Panic => True
  | Fuel, Fuel => True
  | _, _ => False
  end.
Proof.
  intros Hs Hk. revert x c1 c2; induction n as [|n IH]; intros x c1 c2 Hc; cbn [newton_loop]; [split; auto|].
  destruct (newton_agree s k x c1 c2 Hs Hk Hc) as [E1 E2].
  destruct (newton ev s k x c1) as [r1 d1], (newton ev s k x c2) as [r2 d2]; cbn in E1, E2; subst r2.
  destruct r1 as [[y|y]|e| |]; try exact I.
  - now apply IH.
  - destruct (mapM first_scalar y) as [rs|?| |]; cbn; auto. destruct rs as [|? [|? ?]]; cbn; auto.
  - destruct e; cbn; auto.
Qed.

Lemma start_loop_agree js s k sv c1 c2 r :
  Forall within s -> Forall within k -> agree c1 c2 ->
  start_loop ev js s k sv c1 r = start_loop ev js s k sv c2 r.
Proof.
  intros Hs Hk. revert c1 c2 r; induction js as [|j js IH]; intros c1 c2 r Hc; cbn [start_loop]; [reflexivity|].
  pose proof (newton_loop_agree 1000 s k (map (fun k0 => mkVar k0 [Scalar (nof_Z j)]) sv) c1 c2 Hs Hk Hc) as H.
  destruct (newton_loop ev 1000 s k _ c1) as [[[v stop] d1]|e| |], (newton_loop ev 1000 s k _ c2) as [[[v2 stop2] d2]|e2| |];
    try contradiction; cbn [bind]; auto; [|congruence].
  destruct H as [H1 H2]; cbn in H1, H2. injection H1 as <- <-. destruct stop; auto.
Qed.

Lemma split_exprs_sub es comb s k :
  split_exprs es comb = Ok (s, k) -> (forall e, In e s -> In e es) /\ (forall e, In e k -> In e es).
Proof.
  unfold split_exprs.
  assert (H : forall comb s0 k0 n s' k' n',
    foldM (fun (s : list (AST N) * list (AST N) * nat) j =>
            let '(search, check, removed) := s in
            if Nat.ltb j removed then Panic
            else do xr <- take_at (j - removed) check;
                 Ok (search ++ [fst xr], snd xr, Datatypes.S removed)) comb (s0, k0, n) = @Ok EvalError _ (s', k', n') ->
    (forall e, In e s' -> In e s0 \/ In e k0) /\ (forall e, In e k' -> In e k0)).
  { clear. induction comb as [|j comb IH]; intros s0 k0 n s' k' n' H; cbn [foldM] in H.
    - injection H as <- <- <-; auto.
    - destruct (Nat.ltb j n); [discriminate|]. unfold take_at, idx in H.
      destruct (nth_error k0 (j - n)) as [x|] eqn:E; [|discriminate]. cbn in H.
      apply IH in H as [H1 H2].
      assert (Hin : forall y, In y (firstn (j - n) k0 ++ skipn (Datatypes.S (j - n)) k0) -> In y k0).
      { clear. generalize (j - n) as d. intros d; revert k0; induction d as [|d IH]; intros [|z k0] y; cbn; auto.
        intros [Hy|Hy]; auto. }
      split; [|intros e He; apply Hin; auto]. intros e He. apply H1 in He as [He|He].
      + apply in_app_iff in He as [He|[<-|[]]]; [now left|right]. eapply nth_error_In, E.
      + right; auto. }
  intros Hs. destruct (foldM _ comb ([], es, 0)) as [[[s' k'] n']|?| |] eqn:E; try discriminate.
  injection Hs as <- <-. apply H in E as [H1 H2]. split; [|exact H2].
  intros e He. apply H1 in He as [[]|He]; exact He.
Qed.

Lemma comb_loop_agree cs es c1 c2 sv :
  Forall within es -> agree c1 c2 -> comb_loop ev cs es c1 sv = comb_loop ev cs es c2 sv.
Proof.
  intros Hes Hc; induction cs as [|i cs IH]; cbn [comb_loop]; [reflexivity|].
  apply bind_ext. intros [s k] Hsk. apply split_exprs_sub in Hsk as [H1 H2].
  rewrite (start_loop_agree _ _ _ _ c1 c2); [|apply Forall_forall; intros e He; eapply Forall_forall; eauto..|exact Hc].
  apply bind_ext; intros rs _. apply bind_ext; intros cl _. destruct cl; auto.
Qed.

Lemma fold_add_agree (sv : list str) c1 c2 : agree c1 c2 ->
  agree (fold_left (fun c n => add_var c (mkVar n [Scalar nprobe])) sv c1)
        (fold_left (fun c n => add_var c (mkVar n [Scalar nprobe])) sv c2).
Proof. revert c1 c2; induction sv; intros; cbn; auto using agree_add_var. Qed.
Lemma fold_remove_agree (sv : list str) c1 c2 : agree c1 c2 ->
  agree (fold_left remove_var sv c1) (fold_left remove_var sv c2).
Proof. revert c1 c2; induction sv; intros; cbn; auto using agree_remove_var. Qed.

Lemma solve_agree eqs c1 c2 sv :
  (forall e n, In e eqs -> In n (mentions (fst e) ++ mentions (snd e)) -> S n) ->
  (forall n, In n sv -> S n) -> agree c1 c2 ->
  solve ev eqs c1 sv = solve ev eqs c2 sv.
Proof.
  intros Heq Hsv Hc. unfold solve.
  set (es := map (fun i => AOp OSub (fst i) (snd i)) eqs).
  assert (Hes : Forall within es).
  { apply Forall_map, Forall_forall. intros e He n Hn. cbn in Hn. eauto. }
  clearbody es. unfold rf_new. destruct es as [|e0 es]; [reflexivity|].
  destruct (negb _); [reflexivity|].
  assert (Ex : existsb (fun n => existsb (fun v => str_eqb (var_name v) n) (vars c1)) sv =
               existsb (fun n => existsb (fun v => str_eqb (var_name v) n) (vars c2)) sv).
  { clear -Hsv Hc. induction sv as [|n sv IH]; cbn; [reflexivity|].
    rewrite (agree_exists c1 c2 n Hc) by (apply Hsv; now left). f_equal. apply IH. intros; apply Hsv; now right. }
  revert Ex.
  generalize (existsb (fun n => existsb (fun v => str_eqb (var_name v) n) (vars c1)) sv) as b1.
  generalize (existsb (fun n => existsb (fun v => str_eqb (var_name v) n) (vars c2)) sv) as b2.
  intros b2 b1 ->. destruct b2; [reflexivity|]. destruct (Nat.ltb _ _); [reflexivity|].
  rewrite (Hev e0 _ _ ltac:(now inversion Hes) (fold_add_agree sv _ _ Hc)).
  destruct (ev e0 _) as [vs|?| |]; cbn [bind]; try reflexivity.
  destruct (idx vs 0) as [v|?| |]; cbn [bind]; try reflexivity.
  destruct v; cbn [bind]; try reflexivity.
  unfold find_roots; cbn. apply comb_loop_agree; [exact Hes|]. apply fold_remove_agree, fold_add_agree, Hc.
Qed.
End Higher.
End Agree.

Section EvalAgree.
Context {N : Num} {En : Env}.
Notation V := (Value N).
(** The same functions, whose bodies mention, beside their parameters, only the names [U]. *)
Definition same_funs (U : str -> Prop) (F1 F2 : list (MFun N)) : Prop :=
  (forall n, lookup_fun (mkCtx [] F1) n = lookup_fun (mkCtx [] F2) n) /\
  (forall n fn, lookup_fun (mkCtx [] F1) n = Some fn -> within (fun n => In n (fun_inputs fn) \/ U n) (fun_ast fn)).

Lemma cart_prod_length {A} (ls : list (list A)) p : In p (cart_prod ls) -> List.length p = List.length ls.
Proof.
  rewrite cart_prod_choices. revert p. induction ls as [|l ls IH]; intros p; cbn [choices].
  - intros [<-|[]]. reflexivity.
  - intros H. apply in_flat_map in H as (x & _ & H). apply in_map_iff in H as (q & <- & H). cbn. f_equal. auto.
Qed.
Lemma named_params n params (p : list V) : List.length p = List.length params -> In n params ->
  named n (map (fun nv => mkVar (fst nv) [snd nv]) (combine params p)) <> [].
Proof.
  revert p. induction params as [|m params IH]; intros [|v p] Hl Hn; try discriminate; [destruct Hn|]. cbn in *.
  destruct (str_eqb_spec m n) as [E|E]; [discriminate|]. destruct Hn as [Hn|Hn]; [contradiction|]. apply IH; [lia|exact Hn].
Qed.

Lemma eval_agree_free (U : str -> Prop) n : forall (S : str -> Prop), (forall m, U m -> S m) -> forall b c1 c2 last,
  within S b -> agree S (same_funs U) c1 c2 -> eval_rec n b c1 last = eval_rec n b c2 last.
Proof.
  induction n as [|f IHf]; intros S HU b c1 c2 last Hb Hc; [reflexivity|]. pose proof (IHf S HU) as IH.
  assert (Hin : forall (l : list (AST N)) e, (forall n, In n (flat_map mentions l) -> S n) -> In e l -> within S e).
  { intros l e Hl He n Hn. apply Hl, in_flat_map; eauto. }
  cbn [eval_rec]. destruct b as [s|v|m|l|name|name inputs|op l r|e x lb ub|e x a|eqs sv]; unfold within in Hb; cbn [mentions] in Hb.
  - reflexivity.
  - f_equal. apply mapM_ext. intros i Hi. rewrite (IH i c1 c2) by eauto. reflexivity.
  - f_equal. apply mapM_ext. intros i Hi. apply mapM_ext. intros j Hj. rewrite (IH j c1 c2); [reflexivity| |exact Hc].
    intros n Hn. apply Hb, in_flat_map. exists i; split; [exact Hi|]. apply in_flat_map; eauto.
  - unfold concatM. f_equal. apply mapM_ext. intros i Hi. apply IH; eauto.
  - rewrite !lookup_named. destruct Hc as [H _]. rewrite (H name); [reflexivity|]. apply Hb; now left.
  - destruct (str_eqb last name); [reflexivity|]. destruct Hc as (H1 & H2 & H3).
    change (lookup_fun c1 name) with (lookup_fun (mkCtx [] (funs c1)) name). change (lookup_fun c2 name) with (lookup_fun (mkCtx [] (funs c2)) name). rewrite <- H2. destruct (lookup_fun (mkCtx [] (funs c1)) name) as [fn|] eqn:El; [|reflexivity].
    destruct (Nat.eqb_spec (List.length inputs) (List.length (fun_inputs fn))) as [Hlen|]; cbn [negb]; [|reflexivity].
    assert (Hc : agree S (same_funs U) c1 c2) by (repeat split; auto).
    rewrite (mapM_ext _ (fun i => eval_rec f i c2 last)) by (intros i Hi; apply IH; eauto).
    destruct (mapM _ inputs) as [args|?| |] eqn:Ea; cbn [bind]; try reflexivity.
    unfold concatM. f_equal. apply mapM_ext. intros p Hp. apply cart_prod_length in Hp. apply mapM_length in Ea.
    apply (IHf (fun m => In m (fun_inputs fn) \/ U m)); [auto|now apply (H3 name)|]. split; [|split; assumption].
    intros m Hm. cbn [vars]. rewrite !named_call_vars. destruct Hm as [Hm|Hm].
    + pose proof (named_params m (fun_inputs fn) p ltac:(lia) Hm) as Hne. destruct (named m _); [contradiction|reflexivity].
    + rewrite (H1 m) by auto. reflexivity.
  - assert (Hl : within S l) by (intros n Hn; apply Hb, in_app_iff; auto).
    assert (Hr : within S r) by (intros n Hn; apply Hb, in_app_iff; auto).
    now rewrite (IH l c1 c2), (IH r c1 c2).
  - assert (He : within S e) by (intros n Hn; apply Hb; right; apply in_app_iff; auto).
    rewrite (IH lb c1 c2), (IH ub c1 c2); auto;
      try (intros n Hn; apply Hb; right; apply in_app_iff; right; apply in_app_iff; auto).
    destruct (eval_rec f lb c2 last); cbn [bind]; try reflexivity.
    destruct (eval_rec f ub c2 last); cbn [bind]; try reflexivity.
    unfold concatM. f_equal. apply mapM_ext. intros i _. f_equal. apply mapM_ext. intros j _.
    apply (integral_agree S (same_funs U)); auto.
  - assert (He : within S e) by (intros n Hn; apply Hb; right; apply in_app_iff; auto).
    rewrite (IH a c1 c2); auto; try (intros n Hn; apply Hb; right; apply in_app_iff; auto).
    destruct (eval_rec f a c2 last); cbn [bind]; try reflexivity.
    unfold concatM. f_equal. apply mapM_ext. intros i _. apply (derivative_agree S (same_funs U)); auto.
  - apply (solve_agree S (same_funs U)); auto.
    + intros e n He Hn. apply Hb, in_app_iff. right. apply in_flat_map; eauto.
    + intros n Hn. apply Hb, in_app_iff; auto.
Qed.

(** The special case in which the names of the functions matter as well. *)
Lemma eval_agree (S : str -> Prop) n b c1 c2 last :
  within S b -> agree S (fun _ _ => True) c1 c2 ->
  (forall m, lookup_fun c1 m = lookup_fun c2 m) -> (forall m fn, lookup_fun c1 m = Some fn -> within S (fun_ast fn)) ->
  eval_rec n b c1 last = eval_rec n b c2 last.
Proof.
  intros Hb [Hc _] Hf Hw. apply (eval_agree_free S n S (fun _ H => H)); [exact Hb|]. split; [exact Hc|]. split; [exact Hf|].
  intros m fn Hm k Hk. right. now apply (Hw m fn).
Qed.
End EvalAgree.
