(** * PropPanics: C85 - every panic of eval comes from an equation. *)
From Coq Require Import List NArith ZArith Bool Arith Lia String.
From Verif Require Import Base BaseFacts F64 Num Types Maths Helpers Parser Eval SpecEval EvalFuel EvalProofs EvalTotal GrammarSpec
  ParserSpec ShapeSpec MathsForms Shapes FloatFacts SolveFloat ContextProofs CalcSpec CalcProofs SolveSpec SolveProofs SolveProofs2 PropSolve SolveForward SearchSpec Search PropSearch KindSpec PropKinds PropAnswers PropFaults Toy PropParser.
Import ListNotations.
Local Open Scope string_scope.
Local Open Scope list_scope.

Section Binary64.
Variable lm : Libm.
Local Instance NF : Num := F64 lm.
Context {En : Env}.
Notation V := (Value NF).
Notation equation := (AST NF * AST NF)%type.

(** ** A search that panics, at any fuel *)
(** [eval f], with fuel enough for difference quotients. *)
Definition evq (f : nat) (b : AST NF) (c : Ctx NF) : res EvalError (list V) :=
  match b with AOp OSub _ _ => eval f b c | _ => eval (Nat.max 4 f) b c end.
Lemma evq_le f : evle (eval f) (evq f).
Proof. intros b c. unfold evq, eval. destruct b; try (destruct op); first [apply rle_refl|apply eval_rec_mono; lia]. Qed.
Lemma evq_named f b c1 c2 : (forall n, named n (vars c1) = named n (vars c2)) -> funs c1 = funs c2 -> evq f b c1 = evq f b c2.
Proof. intros H1 H2. unfold evq. destruct b; try (destruct op); now apply eval_named. Qed.
Lemma evq_not_internal f b c e : evq f b c = Err e -> ~ internal e.
Proof. unfold evq. destruct b; try (destruct op); apply eval_not_internal. Qed.

Lemma loops_panic f (eqs : list equation) sv c l : NoDup sv -> sv <> [] -> undefined c sv -> is_choice (List.length sv) (List.length eqs) l ->
  loops f eqs sv c l = Panic -> wrong_at (eval f) sv c eqs None.
Proof.
  unfold loops. generalize starts. intros js Hnd Hne Hd (Hl1 & Hl2 & Hl3) H. unfold loops_js in H. rewrite split_picked in H by (try assumption; now rewrite map_length).
  cbn [bind fst snd] in H. rewrite !picked_map in H.
  match type of H with start_loop _ _ ?a ?b _ _ _ = _ => pose proof (start_loop_mono _ _ (evq_le f) js a b sv c []) as M end.
  rewrite H in M. destruct M as [M|M]; [discriminate|]. symmetry in M. assert (Mt : tag (start_loop (evq f) js (map (fun i => AOp OSub (fst i) (snd i)) (picked (member l) 0 eqs))
    (map (fun i => AOp OSub (fst i) (snd i)) (picked (fun i => negb (member l i)) 0 eqs)) sv c []) = Some None) by (rewrite M; reflexivity).
  apply (start_wrong (evq f) (evq_named f) (fun y y0 c => eval_quot (Nat.max 4 f) y y0 c ltac:(lia)) (fun v y0 c => eval_quot_message lm (Nat.max 4 f) v y0 c ltac:(lia)) (evq_not_internal f)) in Mt; auto.
  - destruct Mt as (xs & e & H1 & H2 & H3). exists xs, e. split; [exact H1|]. split.
    + apply in_app_iff in H2 as [H2|H2]; eapply picked_incl; exact H2.
    + inversion H3; subst; [apply gw_panic|apply gw_no_value|eapply gw_no_number]; eauto.
  - now rewrite picked_length.
Qed.
Lemma loops_fine f (eqs : list equation) sv c l found : NoDup sv -> sv <> [] -> undefined c sv -> is_choice (List.length sv) (List.length eqs) l ->
  loops f eqs sv c l = Ok found -> exists vs, clean_results found = Ok vs.
Proof.
  intros Hnd Hne Hd Hl H. assert (H4 : loops (Nat.max 4 f) eqs sv c l = Ok found).
  { revert H. unfold loops. generalize starts. intros js H. unfold loops_js in *. destruct (split_exprs _ l) as [sc| | |]; try discriminate. cbn [bind] in *.
    assert (L : evle (eval f) (eval (Nat.max 4 f))) by (intros b0 c0; apply eval_rec_mono; lia).
    destruct (start_loop_mono _ _ L js (fst sc) (snd sc) sv c []) as [M|M]; congruence. }
  apply loops_finds in H4; auto; [|lia]. eapply clean_fine; eauto.
Qed.
Lemma combs_panic f (eqs : list equation) sv c ls : NoDup sv -> sv <> [] -> undefined c sv ->
  (forall l, In l ls -> is_choice (List.length sv) (List.length eqs) l) ->
  comb_loop (eval f) ls (map (fun i => AOp OSub (fst i) (snd i)) eqs) c sv = Panic -> wrong_at (eval f) sv c eqs None.
Proof.
  intros Hnd Hne Hd. induction ls as [|l ls IH]; intros Hc H; [discriminate|]. assert (Hl := Hc l (or_introl eq_refl)).
  rewrite (comb_loop_step) in H by exact Hl. destruct (loops f eqs sv c l) as [found|x| |] eqn:E; cbn [bind] in H; try discriminate.
  - destruct (loops_fine f eqs sv c l found Hnd Hne Hd Hl E) as [vs Ev]. rewrite Ev in H. cbn [bind] in H. destruct vs; [|discriminate].
    apply IH; [intros; apply Hc; now right|exact H].
  - now apply (loops_panic f eqs sv c l).
Qed.
Lemma solve_panics f (eqs : list equation) sv c : NoDup sv -> sv <> [] -> solve (eval f) eqs c sv = Panic -> wrong_at (eval f) sv c eqs None.
Proof.
  intros Hnd Hne H.
  destruct eqs as [|e0 eqs]; [discriminate|].
  pose proof (solve_outcome _ _ _ _ f H ltac:(discriminate)) as Hr.
  destruct (existsb (fun n => existsb (fun v => str_eqb (var_name v) n) (vars c)) sv) eqn:Ed.
  { exfalso. apply defined_spec in Ed. pose proof (c35_defined_variable (e0 :: eqs) sv c ltac:(discriminate) Ed) as Ho.
    pose proof (outcome_unique _ _ _ _ Hr Ho). discriminate. }
  assert (Hdf : ~ defined c sv) by (intros D; apply defined_spec in D; congruence).
  assert (Hd : undefined c sv) by (intros n v Hn Hv E; apply Hdf; exists n, v; auto).
  destruct (Nat.le_gt_cases (List.length sv) (List.length (e0 :: eqs))) as [Hl|Hl].
  2:{ exfalso. pose proof (c35_underdetermined (e0 :: eqs) sv c ltac:(discriminate) Hdf Hl) as Ho. pose proof (outcome_unique _ _ _ _ Hr Ho). discriminate. }
  destruct e0 as [a b].
  assert (W : forall r', outcome (AOp OSub a b) (probe_context c sv) r' -> (forall vs s rest, r' = Ok vs -> vs <> Scalar s :: rest) ->
    Panic = (do vs <- r'; do v <- idx vs 0; match v with Vector _ => Err VectorInEq | Matrix _ => Err MatrixInEq | Scalar _ => Ok (@nil V) end)).
  { intros r' H1 H2. exact (outcome_unique _ _ _ _ Hr (first_equation a b eqs sv c r' Hdf Hl H1 H2)). }
  assert (P : goes_wrong (fun b c r => eval f b c = r) (probe_context c sv) (a, b) Panic -> wrong_at (eval f) sv c ((a, b) :: eqs) None).
  { intros Hw. exists (repeat nprobe (List.length sv)), (a, b). split; [apply repeat_length|]. split; [now left|exact Hw]. }
  destruct (eval f (AOp OSub a b) (probe_context c sv)) as [[|[m|w|s] rest]|x| |] eqn:E.
  - apply P. now apply gw_no_value.
  - exfalso. assert (Ho : outcome (AOp OSub a b) (probe_context c sv) (Ok (Matrix m :: rest))) by (eapply outcome_intro; [exact E|discriminate]).
    specialize (W _ Ho ltac:(congruence)). discriminate.
  - exfalso. assert (Ho : outcome (AOp OSub a b) (probe_context c sv) (Ok (Vector w :: rest))) by (eapply outcome_intro; [exact E|discriminate]).
    specialize (W _ Ho ltac:(congruence)). discriminate.
  - rewrite (solve_general f _ sv c (a, b) eqs s rest eq_refl Hd Hl E) in H.
    apply combs_panic in H; auto. intros l; now apply choices_spec.
  - exfalso. assert (Ho : outcome (AOp OSub a b) (probe_context c sv) (Err x)) by (eapply outcome_intro; [exact E|discriminate]).
    specialize (W _ Ho ltac:(congruence)). discriminate.
  - apply P. now apply gw_panic.
  - exfalso. unfold solve, rf_new in H. pose proof (all_operations ((a, b) :: eqs)) as Ho. cbn [map] in *. rewrite Ho in H. cbn [negb] in H.
    rewrite Ed in H. destruct (Nat.ltb_spec (List.length (AOp OSub (fst (a, b)) (snd (a, b)) :: map (fun i => AOp OSub (fst i) (snd i)) eqs)) (List.length sv)) as [H'|H'].
    { cbn in *. rewrite map_length in H'. lia. }
    rewrite probe_context_eq in H. cbn [fst snd] in H. rewrite E in H. discriminate.
Qed.

(** ** Evaluation *)
Section Trace.
(** Which equations are considered, and the functions of the context. *)
Variable K : list equation -> list str -> Prop.
Variable FS : list (MFun NF).
Hypothesis HK : forall eqs sv, K eqs sv -> NoDup sv /\ sv <> [].
Definition tame (a : AST NF) : Prop := regular a /\ forall eqs sv, node (AEq eqs sv) a -> K eqs sv.
Hypothesis HFS : forall f, In f FS -> tame (fun_ast f).
Definition tame_ctx (c : Ctx NF) : Prop :=
  (forall v x, In v (vars c) -> In x (var_values v) -> well_formed x) /\ funs c = FS.
Definition culprit : Prop := exists eqs sv e c', K eqs sv /\ In e eqs /\ tame_ctx c' /\
  (outcome (difference e) c' (Ok []) \/ exists v rest, outcome (difference e) c' (Ok (v :: rest)) /\ forall s, v <> Scalar s).
Notation safe := (sat (Forall well_formed) (fun _ : EvalError => True) culprit True).

Lemma tame_child a b : tame a -> In b (children a) -> tame b.
Proof.
  intros [H1 H2] Hb. split.
  - intros x Hx. apply H1. econstructor; eauto.
  - intros eqs sv Hx. apply (H2 eqs sv). econstructor; eauto.
Qed.
Lemma tame_node a : tame a -> match a with AVector v => v <> [] | AMatrix m => exists r c, 0 < r /\ 0 < c /\ shape m r c | AEq eqs sv => K eqs sv | _ => True end.
Proof. intros [H1 H2]. pose proof (H1 a (Node_here _)) as G. destruct a; auto. apply (H2 equations search_vars). constructor. Qed.
Lemma tame_build a : match a with AVector v => v <> [] | AMatrix m => exists r c, 0 < r /\ 0 < c /\ shape m r c | AEq _ _ => False | _ => True end ->
  (forall b, In b (children a) -> tame b) -> tame a.
Proof.
  intros H1 H2. split.
  - intros x Hx. inversion Hx as [|b ? Hb Hn]; subst; [destruct a; auto|]. destruct (H2 b Hb) as [G _]. now apply G.
  - intros eqs sv Hx. inversion Hx as [|b ? Hb Hn]; subst; [destruct H1|]. destruct (H2 b Hb) as [_ G]. now apply (G eqs sv).
Qed.
Lemma tame_gentle a : gentle a -> tame a.
Proof. intros [H1 H2]. split; [exact H1|]. intros eqs sv H. destruct (H2 eqs sv H). Qed.
Lemma tame_scalar s : tame (AScalar s). Proof. apply tame_gentle, gentle_scalar. Qed.
Lemma tame_value (v : V) : well_formed v -> tame (ast_from_value v). Proof. intros. now apply tame_gentle, gentle_value. Qed.
Lemma weaken {E A} (P : A -> Prop) (Q : E -> Prop) r : sat P Q False True r -> sat P Q culprit True r.
Proof. apply sat_impl; auto. intros []. Qed.
Lemma mathe_op_or op (x y : V) : well_formed x -> well_formed y -> safe (apply_op op x y).
Proof. intros. now apply weaken, mathe_op_safe. Qed.
Lemma add_or (x y : V) : well_formed x -> well_formed y -> sat well_formed (fun _ : EvalError => True) culprit True (mathe (add x y)).
Proof. intros. now apply weaken, add_safe. Qed.
Lemma mult_or (x y : V) : well_formed x -> well_formed y -> sat well_formed (fun _ : EvalError => True) culprit True (mathe (mult x y)).
Proof. intros. now apply weaken, mult_safe. Qed.
Lemma concatM_or {X} (f : X -> res EvalError (list V)) l : (forall x, In x l -> safe (f x)) -> safe (concatM f l).
Proof.
  intros H. unfold concatM. eapply (sat_bind (Forall (Forall well_formed))); [now apply sat_mapM|]. intros ls Hls. cbn.
  apply Forall_concat. exact Hls.
Qed.

Section Ev.
Variable ev : AST NF -> Ctx NF -> res EvalError (list V).
Hypothesis Hev : forall b c, tame b -> tame_ctx c -> safe (ev b c).

Lemma add_samples_or (sums es : list V) : Forall well_formed sums -> Forall well_formed es -> safe (add_samples sums es).
Proof.
  revert sums; induction es as [|e es IH]; intros [|s sums] Hs He; cbn [add_samples]; try exact Hs.
  - inversion He; subst. eapply (sat_bind (Forall well_formed)); [now apply IH|]. cbn. auto.
  - inversion He; inversion Hs; subst. eapply (sat_bind well_formed); [now apply add_or|]. intros a Ha.
    eapply (sat_bind (Forall well_formed)); [now apply IH|]. cbn. auto.
Qed.
Lemma integral_loop_or f e x c dx ub b sums : tame e -> tame_ctx c -> Forall well_formed sums ->
  safe (integral_loop ev f e x c (remove_first x (vars c)) dx ub b sums).
Proof.
  intros He Hc. revert b sums; induction f as [|f IH]; intros b sums Hs; cbn [integral_loop]; [exact I|].
  destruct (nltb b ub); [|exact Hs].
  eapply (sat_bind (Forall well_formed)).
  - apply Hev; [assumption|]. destruct Hc as [C1 C2]. split; [|exact C2]. cbn. intros v w Hv Hw. apply in_app_iff in Hv as [Hv|[<-|[]]].
    + apply (C1 v); auto. eapply remove_first_in; eauto.
    + cbn in Hw. destruct Hw as [<-|[]]. apply wf_scalar.
  - intros es Hes. eapply (sat_bind (Forall well_formed)); [now apply add_samples_or|]. intros; now apply IH.
Qed.
Lemma integral_or f e x l u c : tame e -> tame_ctx c -> safe (calculate_integral ev f e x l u c).
Proof.
  intros He Hc. unfold calculate_integral. destruct l; try exact I. destruct u; try exact I.
  destruct (neqb s s0); [cbn; constructor; [apply wf_scalar|constructor]|].
  destruct (if nltb s0 s then (s0, s) else (s, s0)) as [lb ub]. cbv zeta.
  eapply (sat_bind (Forall well_formed)); [now apply integral_loop_or|]. intros sums Hs.
  apply sat_mapM. intros y Hy. rewrite Forall_forall in Hs. apply mult_or; auto using wf_scalar.
Qed.
Lemma tame_remove_var c x : tame_ctx c -> tame_ctx (remove_var c x).
Proof. intros [C1 C2]. split; [|exact C2]. cbn. intros v w Hv. apply filter_In in Hv as [Hv _]. now apply C1. Qed.
Lemma tame_add_var c v : tame_ctx c -> Forall well_formed (var_values v) -> tame_ctx (add_var c v).
Proof.
  intros [C1 C2] Hv. split; [|exact C2]. cbn. intros w y Hw Hy. apply in_app_iff in Hw as [Hw|[<-|[]]].
  - apply filter_In in Hw as [Hw _]. now apply (C1 w).
  - rewrite Forall_forall in Hv. now apply Hv.
Qed.
Lemma derivative_or e x a c : tame e -> tame_ctx c -> safe (fst (calculate_derivative ev e x a c)).
Proof.
  intros He Hc. unfold calculate_derivative. destruct a; try exact I.
  set (c1 := add_var (remove_var c x) (mkVar x [Scalar s])).
  assert (H1 : tame_ctx c1) by (apply tame_add_var; [now apply tame_remove_var|repeat constructor; apply wf_scalar]).
  pose proof (Hev e c1 He H1) as S1. destruct (ev e c1) as [fxs| | |]; try exact S1.
  set (c2 := add_var (remove_var c1 x) (mkVar x [Scalar (nadd s eps)])).
  assert (H2 : tame_ctx c2) by (apply tame_add_var; [now apply tame_remove_var|repeat constructor; apply wf_scalar]).
  pose proof (Hev e c2 He H2) as S2. destruct (ev e c2) as [fxhs| | |]; try exact S2.
  destruct (negb _); [exact I|]. cbn in S1, S2. rewrite Forall_forall in S1, S2.
  assert (S3 : sat (Forall (Forall well_formed)) (fun _ : EvalError => True) culprit True
     (mapM (fun p => ev (quotient_ast (snd p) (fst p)) c2) (combine fxs fxhs))).
  { apply sat_mapM. intros [u w] Huw. pose proof (in_combine_l _ _ _ _ Huw) as Hu. pose proof (in_combine_r _ _ _ _ Huw) as Hw.
    apply Hev; [|exact H2]. cbn [fst snd]. apply tame_build; [exact I|]. cbn. intros b [<-|[<-|[]]]; [|apply tame_scalar].
    apply tame_build; [exact I|]. cbn. intros b [<-|[<-|[]]]; apply tame_value; auto. }
  destruct (mapM _ (combine fxs fxhs)) as [rs| | |]; cbn in *; auto. now apply Forall_concat.
Qed.
End Ev.

Lemma scalars_or e (l : list V) : sat (fun _ : list T => True) (fun _ : EvalError => True) culprit True (scalars_or e l).
Proof.
  unfold scalars_or. eapply sat_impl; [| | | |apply (sat_mapM (fun _ => True) (fun _ => True) culprit True)]; auto.
  intros v _. destruct (get_scalar v); exact I.
Qed.
Lemma tame_call c params (p : list V) : tame_ctx c -> Forall well_formed p -> tame_ctx (mkCtx (call_vars params p (vars c)) (funs c)).
Proof.
  intros [C1 C2] Hp. split; [|exact C2]. cbn. intros v x Hv Hx. apply push_in in Hv as [Hv|Hv]; [|now apply (C1 v)].
  apply in_map_iff in Hv as ([n w] & <- & Hv). apply in_combine_r in Hv. cbn in Hx. destruct Hx as [<-|[]]. rewrite Forall_forall in Hp. auto.
Qed.


Lemma tame_set_nums sv xs c : tame_ctx c -> tame_ctx (set_nums c sv xs).
Proof.
  unfold set_nums. generalize (combine sv xs). intros l. revert c. induction l as [|[n x] l IH]; intros c Hc; [exact Hc|]. cbn. apply IH.
  apply tame_add_var; [exact Hc|]. constructor; [apply wf_scalar|constructor].
Qed.
Theorem eval_rec_or f : forall b c l, tame b -> tame_ctx c -> safe (eval_rec f b c l).
Proof.
  induction f as [|f IH]; intros b c l Hb Hc; [exact I|]. cbn [eval_rec].
  pose proof (tame_node b Hb) as Hn. pose proof (fun x => tame_child b x Hb) as Hch.
  destruct b; cbn [children] in Hch.
  - cbn. constructor; [apply wf_scalar|constructor].
  - eapply (sat_bind (fun ls => List.length ls = List.length v)).
    + eapply sat_impl; [| | | |apply (sat_mapM_len (fun _ _ => True) (fun _ => True) culprit True)]; auto.
      { intros ls H. symmetry. eapply BaseFacts.Forall2_length; exact H. }
      intros x Hx. eapply sat_bind; [apply IH; auto|]. intros; apply scalars_or.
    + intros ls Hls. cbn. apply Forall_forall. intros w Hw. apply in_map_iff in Hw as (t & <- & Ht). rewrite cart_prod_choices in Ht.
      apply choices_in in Ht. apply BaseFacts.Forall2_length in Ht. exists (KV (List.length t)). cbn. split; [|reflexivity].
      destruct v; [congruence|]. cbn in Hls. lia.
  - destruct Hn as (r & k & Hr & Hk & Hm1 & Hm2).
    eapply (sat_bind (fun ls => List.length ls = r /\ Forall (fun row => List.length row = k) ls)).
    + eapply sat_impl; [| | | |apply (sat_mapM_len (fun row (ls : list (list T)) => List.length ls = List.length row) (fun _ => True) culprit True)]; auto.
      { intros ls H. split; [apply BaseFacts.Forall2_length in H; congruence|]. clear -H Hm2.
        induction H; inversion Hm2; subst; constructor; auto; congruence. }
      intros row Hrow. eapply sat_impl; [| | | |apply (sat_mapM_len (fun _ _ => True) (fun _ => True) culprit True)]; auto.
      { intros ls H. symmetry. eapply BaseFacts.Forall2_length; exact H. }
      intros x Hx. eapply sat_bind; [apply IH; auto; apply Hch, in_concat; eauto|]. intros; apply scalars_or.
    + intros ls (Hls1 & Hls2). cbn. apply Forall_forall. intros w Hw. apply in_map_iff in Hw as (t & <- & Ht). rewrite cart_prod_choices in Ht.
      apply choices_in in Ht. exists (KM r k). cbn. repeat split; auto.
      * apply BaseFacts.Forall2_length in Ht. rewrite map_length in Ht. exact (eq_trans Ht Hls1).
      * apply Forall_forall. intros row Hrow. apply In_nth_error in Hrow as (i & Hi).
        destruct (Forall2_nth _ _ _ _ _ Ht Hi) as (cp & Hcp & Hin).
        apply nth_error_In in Hcp. apply in_map_iff in Hcp as (fields & <- & Hfields).
        rewrite cart_prod_choices in Hin. apply choices_in in Hin. apply BaseFacts.Forall2_length in Hin.
        rewrite Forall_forall in Hls2. exact (eq_trans Hin (Hls2 _ Hfields)).
  - apply concatM_or. intros x Hx. apply IH; auto.
  - unfold lookup_var. destruct (find _ _) eqn:Ef; [|exact I]. apply find_some in Ef as [Ef _]. cbn. apply Forall_forall. intros x. now apply (proj1 Hc).
  - destruct (str_eqb l name); [exact I|]. unfold lookup_fun. destruct (find _ _) as [fn|] eqn:Ef; [|exact I]. apply find_some in Ef as [Ef _].
    destruct (negb _); [exact I|].
    eapply (sat_bind (Forall (Forall well_formed))); [apply sat_mapM; intros; apply IH; auto|]. intros args Hargs.
    apply concatM_or. intros p Hp. apply IH; [apply HFS; rewrite <- (proj2 Hc); assumption|]. apply tame_call; [exact Hc|].
    rewrite cart_prod_choices in Hp. apply choices_in in Hp. clear -Hp Hargs. induction Hp; inversion Hargs; subst; constructor; auto.
    rewrite Forall_forall in *. auto.
  - eapply (sat_bind (Forall well_formed)); [apply IH; auto; apply Hch; cbn; auto|]. intros lv Hlv.
    eapply (sat_bind (Forall well_formed)); [apply IH; auto; apply Hch; cbn; auto|]. intros rv Hrv.
    rewrite Forall_forall in Hlv, Hrv.
    apply concatM_or. intros x Hx. apply concatM_or. intros y Hy. apply mathe_op_or; auto.
  - eapply (sat_bind (Forall well_formed)); [apply IH; auto; apply Hch; cbn; auto|]. intros lv Hlv.
    eapply (sat_bind (Forall well_formed)); [apply IH; auto; apply Hch; cbn; auto|]. intros rv Hrv.
    apply concatM_or. intros x Hx. apply concatM_or. intros y Hy. apply integral_or; auto.
    apply Hch; cbn; auto.
  - eapply (sat_bind (Forall well_formed)); [apply IH; auto; apply Hch; cbn; auto|]. intros lv Hlv.
    apply concatM_or. intros x Hx. apply derivative_or; auto. apply Hch; cbn; auto.
  - cbv zeta. change (safe (solve (eval f) equations c search_vars)). destruct (HK _ _ Hn) as [Hnd Hne].
    destruct (solve (eval f) equations c search_vars) as [vs|x| |] eqn:E; try exact I.
    + cbn. apply Forall_forall. intros v Hv. apply (solve_outcome _ _ _ _ f) in E; [|discriminate].
      destruct (c34_form _ _ _ _ _ v E Hv) as [F1 F2]. destruct (Nat.eq_dec (List.length search_vars) 1) as [L|L].
      * destruct (F1 L) as (y & -> & _). apply wf_scalar.
      * destruct (F2 L) as (xs & -> & Hx & _). exists (KV (List.length xs)). cbn. split; [|reflexivity]. destruct search_vars; [contradiction|]. cbn in Hx. lia.
    + cbn. apply solve_panics in E; auto. destruct E as (xs & e & Hx & He & Hw).
      assert (Hc' : tame_ctx (set_nums c search_vars xs)) by (now apply tame_set_nums).
      assert (Hd : tame (difference e)).
      { apply tame_build; [exact I|]. intros b Hb'. cbn in Hb'. apply Hch. apply in_flat_map. exists e. split; [exact He|]. cbn. exact Hb'. }
      inversion Hw as [|G|G|v rest G Gv|]; subst.
      * pose proof (IH _ _ [] Hd Hc') as S. unfold eval in G. rewrite G in S. exact S.
      * exists equations, search_vars, e, (set_nums c search_vars xs). split; [exact Hn|]. split; [exact He|]. split; [exact Hc'|]. left. eapply outcome_intro; [exact G|discriminate].
      * exists equations, search_vars, e, (set_nums c search_vars xs). split; [exact Hn|]. split; [exact He|]. split; [exact Hc'|]. right. exists v, rest. split; [eapply outcome_intro; [exact G|discriminate]|exact Gv].
Qed.
End Trace.

(** ** C85 *)
(** The equations [eqs] for the unknowns [sv] occur in [b] or in the body of a
    function of [c]. *)
Definition occurs (b : AST NF) (c : Ctx NF) (eqs : list equation) (sv : list str) : Prop :=
  node (AEq eqs sv) b \/ exists f, In f (funs c) /\ node (AEq eqs sv) (fun_ast f).
(** Values are well-formed; functions are trees as [parse] makes them. *)
Definition well_formed_context (c : Ctx NF) : Prop :=
  (forall v x, In v (vars c) -> In x (var_values v) -> well_formed x) /\ (forall f, In f (funs c) -> regular (fun_ast f)).
(** Every eq(...) that occurs is for at least one unknown, all different. *)
Definition proper_equations (b : AST NF) (c : Ctx NF) : Prop := forall eqs sv, occurs b c eqs sv -> NoDup sv /\ sv <> [].
(** At [c], the difference of the two sides of [e] has no value, or its first
    value is not a number. *)
Definition not_a_number (e : equation) (c : Ctx NF) : Prop :=
  outcome (difference e) c (Ok []) \/ exists v rest, outcome (difference e) c (Ok (v :: rest)) /\ forall s, v <> Scalar s.

Lemma traced (b : AST NF) (c : Ctx NF) r : regular b -> well_formed_context c -> proper_equations b c -> outcome b c r ->
  sat (Forall well_formed) (fun _ => True) (exists eqs sv e c', occurs b c eqs sv /\ In e eqs /\ well_formed_context c' /\ funs c' = funs c /\ not_a_number e c') True r.
Proof.
  intros Hb [Hc1 Hc2] Hp [_ [f0 Ho]]. specialize (Ho f0 (Nat.le_refl _)). unfold eval in Ho.
  pose proof (eval_rec_or (occurs b c) (funs c)) as G. specialize (G Hp).
  assert (H1 : forall f, In f (funs c) -> tame (occurs b c) (fun_ast f)).
  { intros f Hf. split; [now apply Hc2|]. intros eqs sv H. right. eauto. }
  specialize (G H1 f0 b c []). rewrite Ho in G. assert (G' : sat (Forall well_formed) (fun _ : EvalError => True) (culprit (occurs b c) (funs c)) True r).
  { apply G; [split; [exact Hb|]; intros eqs sv H; now left|split; [exact Hc1|reflexivity]]. }
  destruct r; cbn in *; auto. destruct G' as (eqs & sv & e & c' & Hk & He & [V0 E] & Hn). exists eqs, sv, e, c'. split; [exact Hk|]. split; [exact He|].
  split; [split; [exact V0|rewrite E; exact Hc2]|]. split; [exact E|exact Hn].
Qed.
Theorem c85_panics (b : AST NF) (c : Ctx NF) : regular b -> well_formed_context c -> proper_equations b c -> outcome b c Panic ->
  exists eqs sv e c', occurs b c eqs sv /\ In e eqs /\ well_formed_context c' /\ funs c' = funs c /\ not_a_number e c'.
Proof. intros H1 H2 H3 H4. exact (traced b c Panic H1 H2 H3 H4). Qed.
Theorem c85_well_formed (b : AST NF) (c : Ctx NF) vs : regular b -> well_formed_context c -> proper_equations b c -> outcome b c (Ok vs) -> Forall well_formed vs.
Proof. intros H1 H2 H3 H4. exact (traced b c (Ok vs) H1 H2 H3 H4). Qed.
(** If the two sides of every equation always have a difference that begins with
    a number, or an error, eval does not panic. *)
Theorem c85_no_panic (b : AST NF) (c : Ctx NF) : regular b -> well_formed_context c -> proper_equations b c ->
  (forall eqs sv e c', occurs b c eqs sv -> In e eqs -> well_formed_context c' -> funs c' = funs c -> ~ not_a_number e c') ->
  ~ outcome b c Panic.
Proof. intros H1 H2 H3 H4 H5. destruct (c85_panics b c H1 H2 H3 H5) as (eqs & sv & e & c' & A & B & C & D & E). exact (H4 eqs sv e c' A B C D E). Qed.
Lemma parsed_regular s (b : AST NF) : parse s = Ok b -> regular b.
Proof.
  intros Hp x Hx. destruct x; auto.
  - eapply c06_vectors_non_empty; eauto.
  - eapply c06_matrices_rectangular; eauto.
Qed.
Theorem c85_panics_parsed s (b : AST NF) (c : Ctx NF) : parse s = Ok b -> well_formed_context c -> proper_equations b c -> outcome b c Panic ->
  exists eqs sv e c', occurs b c eqs sv /\ In e eqs /\ well_formed_context c' /\ funs c' = funs c /\ not_a_number e c'.
Proof. intros Hp. apply c85_panics. now apply (parsed_regular s). Qed.
End Binary64.

(** ** Concrete cases *)
Module Examples.
Import PropFaults.Examples.
Local Existing Instance NT.
Local Existing Instance ET.
(** 2 + f(1), where f(y) = eq(x + 1000 = 0, [1, 2] = [1, 2], x). *)
Definition fy : MFun NT := mkFun (lit "f") (AEq with_vector [X]) [lit "y"].
Definition ctx1 : Ctx NT := mkCtx [] [fy].
Definition sum : AST NT := AOp OAdd (k 2) (AFun (lit "f") [k 1]).
Lemma sum_panics : outcome sum ctx1 Panic.
Proof. apply (outcome_intro 20); [apply is_panic_eq; vm_compute; reflexivity|discriminate]. Qed.
Lemma only_one a eqs sv : In a [sum; fun_ast fy] -> node (AEq eqs sv) a -> sv = [X].
Proof.
  intros Ha Hn. assert (G : forall t, node (AEq eqs sv) t -> (t = sum \/ t = fun_ast fy \/ (exists z, t = k z) \/ t = AFun (lit "f") [k 1] \/ t = x1000 \/ t = AVar X \/ t = AVector [k 1; k 2]) -> sv = [X]).
  { intros t H. induction H as [|b t Hb H IH]; intros Ht.
    - destruct Ht as [H|[H|[[z H]|[H|[H|[H|H]]]]]]; try discriminate. now injection H.
    - destruct Ht as [->|[->|[[z ->]|[->|[->|[->| ->]]]]]]; cbn in Hb; apply IH; intuition (subst; eauto 8). }
  apply (G a Hn). cbn in Ha. intuition (subst; eauto 8).
Qed.
Lemma sum_regular : regular sum.
Proof.
  intros x Hx. inversion Hx as [|b ? Hb Hn]; subst; [exact I|]. cbn in Hb. destruct Hb as [<-|[<-|[]]].
  - inversion Hn as [|b ? Hb' Hn']; subst; [exact I|]. destruct Hb'.
  - inversion Hn as [|b ? Hb' Hn']; subst; [exact I|]. destruct Hb' as [<-|[]]. inversion Hn' as [|b ? Hb'' Hn'']; subst; [exact I|]. destruct Hb''.
Qed.
Lemma body_regular : regular (AEq with_vector [X] : AST NT).
Proof.
  assert (G : forall x t, node x t -> (t = AEq with_vector [X] \/ (exists z, t = k z) \/ t = x1000 \/ t = AVar X \/ t = AVector [k 1; k 2]) ->
    match x with AVector v => v <> [] | AMatrix m => exists r c, 0 < r /\ 0 < c /\ shape m r c | _ => True end).
  { intros x t H. induction H as [|b t Hb H IH]; intros Ht.
    - destruct Ht as [->|[[z ->]|[->|[->| ->]]]]; cbn; try exact I. discriminate.
    - destruct Ht as [->|[[z ->]|[->|[->| ->]]]]; cbn in Hb; apply IH; intuition (subst; eauto 8). }
  intros x Hx. apply (G x _ Hx). now left.
Qed.
Lemma ctx1_fine : well_formed_context toy ctx1.
Proof. split; [now intros|]. intros f Hf. destruct Hf as [<-|Hf]; [exact body_regular|destruct Hf]. Qed.
Lemma sum_proper : proper_equations toy sum ctx1.
Proof.
  intros eqs sv H. assert (sv = [X]) as ->; [|split; [exact X_distinct|discriminate]].
  destruct H as [H|(f & [<-|[]] & H)]; [apply (only_one sum eqs sv); [now left|exact H]|apply (only_one (fun_ast fy) eqs sv); [right; now left|exact H]].
Qed.
Example c85_case : exists eqs sv e c', occurs toy sum ctx1 eqs sv /\ In e eqs /\ well_formed_context toy c' /\ funs c' = funs ctx1 /\ not_a_number toy e c'.
Proof. apply (c85_panics toy sum ctx1 sum_regular ctx1_fine sum_proper sum_panics). Qed.

End Examples.
