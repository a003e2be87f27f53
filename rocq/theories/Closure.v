(** * Closure: a set of numbers that is closed under the number operations is
    closed under evaluation.

    Used with the set of binary64 numbers ([fvalid]): every number in every
    result is one. *)
From Coq Require Import List NArith ZArith Bool Arith Lia String.
From Verif Require Import Base BaseFacts F64 Num Types Maths Helpers Parser Eval SpecEval EvalFuel EvalProofs EvalTotal GrammarSpec
  ParserSpec ShapeSpec MathsForms Shapes PropFloat.
Import ListNotations.
Local Open Scope string_scope.
Local Open Scope list_scope.

Record closed {N : Num} (Q : T -> Prop) : Prop := {
  cl_add : forall x y, Q x -> Q y -> Q (nadd x y);
  cl_sub : forall x y, Q x -> Q y -> Q (nsub x y);
  cl_mul : forall x y, Q x -> Q y -> Q (nmul x y);
  cl_div : forall x y, Q x -> Q y -> Q (ndiv x y);
  cl_opp : forall x, Q x -> Q (nopp x);
  cl_sqrt : forall x, Q x -> Q (nsqrt x);
  cl_powf : forall x y, Q x -> Q y -> Q (npowf x y);
  cl_sin : forall x, Q x -> Q (nsin x);
  cl_cos : forall x, Q x -> Q (ncos x);
  cl_tan : forall x, Q x -> Q (ntan x);
  cl_asin : forall x, Q x -> Q (nasin x);
  cl_acos : forall x, Q x -> Q (nacos x);
  cl_atan : forall x, Q x -> Q (natan x);
  cl_ln : forall x, Q x -> Q (nln x);
  cl_of_Z : forall z, Q (nof_Z z);
  cl_probe : Q nprobe
}.

Lemma Forall2_right {A B} (P : B -> Prop) (l : list A) ys : Forall2 (fun _ y => P y) l ys -> Forall P ys.
Proof. induction 1; constructor; auto. Qed.

Section Ops.
Context {N : Num}.
Notation V := (Value N).
Variable Q : T -> Prop.
Hypothesis HQ : closed Q.
Notation Qv := (all_components Q).
Notation Qr := (Forall Q).
Notation Qm := (Forall (Forall Q)).
Notation keeps P := (sat P (fun _ => True) True True).

Lemma q0 : Q n0. Proof. apply (cl_of_Z Q HQ). Qed.
Lemma q1 : Q n1. Proof. apply (cl_of_Z Q HQ). Qed.
Lemma qm1 : Q nm1. Proof. apply (cl_opp Q HQ), (cl_of_Z Q HQ). Qed.
Lemma qpowi_pos p : forall x r, Q x -> Q r -> Q (powi_pos x p r).
Proof. induction p; intros x r Hx Hr; cbn [powi_pos]; auto using (cl_mul Q HQ). Qed.
Lemma qpowi x n : Q x -> Q (npowi x n).
Proof. intros Hx. destruct n; cbn [npowi]; [apply q1|apply qpowi_pos; auto using q1|apply (cl_div Q HQ); [apply q1|apply qpowi_pos; auto using q1]]. Qed.
Lemma idx_keeps {E A} (P : A -> Prop) (l : list A) i : Forall P l -> keeps P (@idx E _ l i).
Proof.
  intros H. unfold idx. destruct (nth_error l i) eqn:Ei; [|exact I]. rewrite Forall_forall in H. apply H. eapply nth_error_In; eauto.
Qed.
Lemma idx2_keeps {E A} (P : A -> Prop) (m : list (list A)) i j : Forall (Forall P) m -> keeps P (@idx2 E _ m i j).
Proof. intros H. unfold idx2. eapply (sat_bind (Forall P)); [now apply idx_keeps|]. intros; now apply idx_keeps. Qed.
Lemma unwrap_keeps {E A} (P : A -> Prop) (o : option A) : (forall a, o = Some a -> P a) -> keeps P (@unwrap E _ o).
Proof. destruct o; cbn; auto. Qed.
Lemma row0_keeps {E A} (m : list (list A)) : keeps (fun _ => True) (@row0_len E _ m).
Proof. unfold row0_len. eapply (sat_bind (fun _ => True)); [|intros; exact I]. unfold idx. destruct (nth_error m 0); exact I. Qed.
Lemma get_matrix_q (v : V) m : Qv v -> get_matrix v = Some m -> Qm m.
Proof. destruct v; cbn; intros H E; try discriminate. now injection E as <-. Qed.
Lemma get_scalar_q (v : V) s : Qv v -> get_scalar v = Some s -> Q s.
Proof. destruct v; cbn; intros H E; try discriminate. now injection E as <-. Qed.

Hint Resolve q0 q1 qm1 qpowi : clo.
Ltac ar := auto using (cl_add Q HQ), (cl_sub Q HQ), (cl_mul Q HQ), (cl_div Q HQ), (cl_opp Q HQ), (cl_sqrt Q HQ), (cl_powf Q HQ), q0, q1, qm1, qpowi.
Ltac cl1 :=
  match goal with
  | |- sat _ _ _ _ (bind (row0_len _) _) => eapply (sat_bind (fun _ => True)); [apply row0_keeps|intros ? _]
  | |- sat _ _ _ _ (bind (idx ?l _) _) => eapply (sat_bind Q); [apply idx_keeps; assumption|]
  | |- sat _ _ _ _ (bind (idx ?l _) _) => eapply (sat_bind (Forall Q)); [apply idx_keeps; assumption|]
  | |- sat _ _ _ _ (bind (idx2 _ _ _) _) => eapply (sat_bind Q); [apply idx2_keeps; assumption|]
  | |- sat Q _ _ _ (Ok _) => cbn; ar
  | |- sat _ _ _ _ (Err _) => exact I
  | |- sat _ _ _ _ Panic => exact I
  | |- sat _ _ _ _ Fuel => exact I
  | |- sat _ _ _ _ (if ?b then _ else _) => destruct b
  | |- sat Qr _ _ _ (mapM _ _) => apply sat_mapM; intros
  | |- sat Qm _ _ _ (mapM _ _) => apply sat_mapM; intros
  | |- sat Q _ _ _ (foldM _ _ _) => apply (sat_foldM Q); [ar|intros]
  end.
Ltac cl := repeat (intros; cl1).
Ltac out P := eapply (sat_bind P); [cl|intros; cbn; auto].

Lemma vadd_q a b : Qr a -> Qr b -> keeps Qv (vadd a b).
Proof. intros Ha Hb. unfold vadd. destruct (negb _); [exact I|]. out (Forall Q). Qed.
Lemma madd_q a b : Qm a -> Qm b -> keeps Qv (madd a b).
Proof. intros Ha Hb. unfold madd. destruct (negb _); [exact I|]. do 2 cl1. destruct (negb _); [exact I|]. out (Forall (Forall Q)). Qed.
Lemma map_q (f : T -> T) l : (forall x, Q x -> Q (f x)) -> Qr l -> Qr (map f l).
Proof. intros Hf Hl. apply Forall_map. eapply Forall_impl; [|exact Hl]. auto. Qed.
Lemma add_q (x y : V) : Qv x -> Qv y -> keeps Qv (add x y).
Proof. destruct x, y; cbn [add all_components]; intros Hx Hy; try exact I; [now apply madd_q|now apply vadd_q|cbn; ar]. Qed.
Lemma sub_q (x y : V) : Qv x -> Qv y -> keeps Qv (sub x y).
Proof.
  destruct x, y; cbn [sub all_components]; intros Hx Hy; try exact I.
  - unfold msub. eapply (sat_bind Qm); [cl|]. intros; now apply madd_q.
  - apply vadd_q; [assumption|]. apply map_q; [|assumption]. intros; ar.
  - cbn. ar.
Qed.
Lemma smmult_q a b : Q a -> Qm b -> keeps Qv (smmult a b).
Proof. intros Ha Hb. unfold smmult. out (Forall (Forall Q)). Qed.
Lemma svmult_q a b : Q a -> Qr b -> keeps Qv (svmult a b).
Proof. intros Ha Hb. unfold svmult. cbn. apply map_q; [|assumption]. intros; ar. Qed.
Lemma mmmult_q a b : Qm a -> Qm b -> keeps Qv (mmmult a b).
Proof. intros Ha Hb. unfold mmmult. cl1. destruct (negb _); [exact I|]. out (Forall (Forall Q)). Qed.
Lemma mult_q (x y : V) : Qv x -> Qv y -> keeps Qv (mult x y).
Proof.
  destruct x, y; cbn [mult all_components]; intros Hx Hy; try exact I; try (now apply mmmult_q); try (now apply smmult_q); try (now apply svmult_q).
  - unfold mvmult. cl1. destruct (negb _); [exact I|]. out (Forall Q).
  - unfold vvmult. destruct (negb _); [exact I|]. out Q.
  - cbn. ar.
Qed.
Lemma div_q (x y : V) : Qv x -> Qv y -> keeps Qv (div x y).
Proof.
  destruct x, y; cbn [div all_components]; intros Hx Hy; try exact I.
  - apply smmult_q; [ar|assumption].
  - unfold vvdiv. destruct (negb _); [exact I|]. out Q.
  - apply svmult_q; [ar|assumption].
  - cbn. ar.
Qed.
Lemma nth_q l i : Qr l -> Q (nth i l n0).
Proof. intros H. destruct (nth_in_or_default i l n0) as [G|G]; [rewrite Forall_forall in H; auto|rewrite G; apply q0]. Qed.
Lemma neg_q (y : V) : Qv y -> keeps Qv (neg y).
Proof.
  destruct y; cbn [neg all_components sat]; intros H.
  - apply Forall_map. eapply Forall_impl; [|exact H]. intros r Hr. apply map_q; [|assumption]. intros; ar.
  - apply map_q; [|assumption]. intros; ar.
  - ar.
Qed.
Lemma cross_q (x y : V) : Qv x -> Qv y -> keeps Qv (cross x y).
Proof.
  destruct x, y; cbn [cross all_components]; intros Hx Hy; try exact I. unfold vcross. destruct (negb _); [exact I|]. destruct (Nat.ltb _ _); [exact I|].
  cbn [sat all_components]. repeat constructor; apply (cl_sub Q HQ); apply (cl_mul Q HQ); now apply nth_q.
Qed.
Lemma pow_q (x y : V) : Qv x -> Qv y -> keeps Qv (pow x y).
Proof.
  destruct x, y; cbn [pow all_components]; intros Hx Hy; try exact I; [|cbn; ar]. unfold mspow. destruct (negb _); [exact I|].
  eapply (sat_bind Qm).
  - apply sat_mapM. intros i _. cl1. cbn. apply Forall_map. apply Forall_forall. intros j _. destruct (Nat.eqb _ _); ar.
  - intros m0 Hm0. eapply (sat_bind Qm); [|intros; cbn; assumption].
    apply iterM_sat; [assumption|]. intros mm Hmm. eapply (sat_bind Qv); [now apply mmmult_q|]. intros p Hp. apply unwrap_keeps. intros m' E. eapply get_matrix_q; eauto.
Qed.
Lemma get_q (x y : V) : Qv x -> Qv y -> keeps Qv (get x y).
Proof.
  destruct x, y; cbn [get all_components]; intros Hx Hy; try exact I. destruct (_ || _)%bool; [exact I|]. destruct v; [exact I|]. destruct (Z.gtb _ _); [exact I|].
  eapply (sat_bind Q); [now apply idx_keeps|]. intros; cbn; assumption.
Qed.
Lemma fold_q {A} (f : A -> T) l : (forall x, In x l -> Q (f x)) -> forall s, Q s -> Q (fold_left (fun s i => nadd s (f i)) l s).
Proof. induction l as [|x l IH]; intros H s Hs; cbn [fold_left]; [assumption|]. apply IH; [intros; apply H; now right|]. apply (cl_add Q HQ); [assumption|]. apply H. now left. Qed.
Lemma abs_q (x : V) : Qv x -> keeps Qv (abs x).
Proof.
  destruct x; cbn [abs all_components]; intros Hx; try exact I.
  - cbn [sat all_components]. apply (cl_sqrt Q HQ). apply (fold_q (fun i => npowi i 2)); [|ar]. intros i Hi. rewrite Forall_forall in Hx. apply qpowi. auto.
  - destruct (nltb _ _); cbn; ar.
Qed.
Lemma scalar_fn_q f ev em (x : V) : (forall a, Q a -> Q (f a)) -> Qv x -> keeps Qv (scalar_fn f ev em x).
Proof. intros Hf. destruct x; cbn; auto. Qed.
Lemma Forall_firstn {A} (P : A -> Prop) n (l : list A) : Forall P l -> Forall P (firstn n l).
Proof. intros H. rewrite <- (firstn_skipn n l) in H. now apply Forall_app in H. Qed.
Lemma Forall_skipn {A} (P : A -> Prop) n (l : list A) : Forall P l -> Forall P (skipn n l).
Proof. intros H. rewrite <- (firstn_skipn n l) in H. now apply Forall_app in H. Qed.
Lemma minor_q i m : Qm m -> Qm (minor i m).
Proof.
  intros H. unfold minor. apply Forall_map. assert (Ht : Qm (tl m)) by (destruct H; [constructor|assumption]).
  eapply Forall_impl; [|exact Ht]. intros r Hr. unfold drop_col. apply Forall_app. split; [apply Forall_firstn|apply Forall_skipn]; assumption.
Qed.
Lemma det_q f : forall m, Qm m -> keeps Qv (det_fuel f m).
Proof.
  induction f as [|f IH]; intros m Hm; [exact I|]. cbn [det_fuel]. cl1. destruct (_ || _)%bool; [exact I|]. destruct (Nat.eqb _ 1).
  { eapply (sat_bind Q); [now apply idx2_keeps|]. intros; cbn; assumption. }
  destruct (Nat.eqb _ 2).
  { do 4 (eapply (sat_bind Q); [now apply idx2_keeps|intros]). cbn. ar. }
  eapply (sat_bind Q); [|intros; cbn; assumption]. apply (sat_foldM Q); [ar|]. intros s i Hs _.
  eapply (sat_bind Q); [now apply idx2_keeps|]. intros x Hx. eapply (sat_bind Qv); [apply IH; now apply minor_q|]. intros d Hd.
  eapply (sat_bind Q); [apply unwrap_keeps; intros ? E; eapply get_scalar_q; eauto|]. intros dv Hdv. cbn. ar.
Qed.
Lemma set_nth_q {A} (P : A -> Prop) l : forall j x, Forall P l -> P x -> Forall P (set_nth l j x).
Proof. induction l as [|y l IH]; intros j x Hl Hx; cbn; [constructor|]. inversion Hl; subst. destruct j; constructor; auto. Qed.
Lemma eliminate_q {E} (z : E) v : Qm v -> keeps Qm (eliminate z v).
Proof.
  intros Hv. unfold eliminate. apply (sat_foldM Qm); [assumption|]. intros w i Hw _. apply (sat_foldM Qm); [assumption|]. intros w' j Hw' _.
  eapply (sat_bind Qr); [now apply idx_keeps|]. intros vi Hvi. eapply (sat_bind Qr); [now apply idx_keeps|]. intros vj Hvj.
  eapply (sat_bind (fun rz => Qr (fst rz))).
  - unfold elim_row. eapply (sat_bind Q); [now apply idx_keeps|]. intros p Hp. eapply (sat_bind Q); [now apply idx_keeps|]. intros q Hq. cbv zeta.
    eapply (sat_bind Qr).
    + apply sat_mapM. intros k _. eapply (sat_bind Q); [now apply idx_keeps|]. intros x Hx. eapply (sat_bind Q); [now apply idx_keeps|]. intros y Hy. cbn. ar.
    + intros tail Ht. cbn. apply Forall_app. split; [now apply Forall_firstn|assumption].
  - intros rz Hrz. destruct (snd rz); [exact I|]. cbn. now apply set_nth_q.
Qed.
Lemma flip_q k v : Qm v -> Qm (flip k v).
Proof.
  intros H. unfold flip, rotate. apply Forall_map. apply Forall_rev in H. eapply Forall_impl; [|exact H]. intros r Hr. apply Forall_rev in Hr.
  apply Forall_app. split; [now apply Forall_skipn|now apply Forall_firstn].
Qed.
Lemma inv_q m : Qm m -> keeps Qv (inv_m m).
Proof.
  intros Hm. unfold inv_m. destruct (det_m m) as [d| | |]; try exact I. destruct (match d with Scalar s => neqb s n0 | _ => false end); [exact I|]. cbv zeta.
  eapply (sat_bind Qm).
  - apply eliminate_q. apply Forall_map. apply Forall_forall. intros [i r] Hir. apply in_combine_r in Hir. cbn [fst snd]. apply Forall_app. split.
    + rewrite Forall_forall in Hm. auto.
    + apply Forall_map, Forall_forall. intros j _. destruct (Nat.eqb _ _); ar.
  - intros v Hv. eapply (sat_bind Qm); [apply eliminate_q; now apply flip_q|]. intros w Hw.
    eapply (sat_bind Qm); [|intros rows Hrows; cbn; now apply Forall_rev].
    apply sat_mapM. intros i _. eapply (sat_bind Qr); [now apply idx_keeps|]. intros r Hr. eapply (sat_bind Q); [now apply idx_keeps|]. intros p Hp. cbv zeta.
    eapply (sat_bind Qr); [|intros o Ho; cbn; now apply Forall_rev]. apply sat_mapM. intros j _. eapply (sat_bind Q); [now apply idx_keeps|]. intros x Hx. cbn. ar.
Qed.
Theorem op_q op (x y : V) : Qv x -> Qv y -> keeps (Forall Qv) (op_meaning op x y).
Proof.
  intros Hx Hy.
  assert (Hs : forall r : res string V, keeps Qv r -> keeps (Forall Qv) (single r)).
  { intros r Hr. unfold single, rmap. eapply (sat_bind Qv); [exact Hr|]. intros a Ha. cbn. auto. }
  destruct op; cbn [op_meaning]; try apply Hs; try (now apply add_q); try (now apply sub_q); try (now apply mult_q); try (now apply div_q); try (now apply neg_q);
    try (now apply cross_q); try (now apply pow_q); try (now apply get_q); try (now apply abs_q); try (apply scalar_fn_q; [|assumption]; apply HQ).
  - eapply (sat_bind Qv); [now apply add_q|]. intros s Hsum. eapply (sat_bind Qv); [now apply sub_q|]. intros d Hd. cbn. auto.
  - destruct x, y; cbn [root all_components] in *; try exact I. cbn. ar.
  - destruct x; cbn [det all_components] in *; try exact I. now apply det_q.
  - destruct x; cbn [inv all_components] in *; try exact I. now apply inv_q.
  - cbn. auto.
Qed.
End Ops.

Section Eval.
Context {N : Num} {En : Env}.
Notation V := (Value N).
Variable Q : T -> Prop.
Hypothesis HQ : closed Q.
Notation Qr := (Forall Q).
Notation Qm := (Forall (Forall Q)).
(** A well-formed value whose numbers are all in the set. *)
Definition proper_value (v : V) : Prop := well_formed v /\ all_components Q v.
Notation W := proper_value.
(** The same of a tree; equations must name what they are solved for. *)
Definition proper_node (x : AST N) : Prop :=
  match x with
  | AScalar s => Q s
  | AVector v => v <> []
  | AMatrix m => exists r c, 0 < r /\ 0 < c /\ shape m r c
  | AEq _ sv => sv <> []
  | _ => True
  end.
Definition proper_tree (a : AST N) : Prop := forall x, node x a -> proper_node x.
Definition proper_context (c : Ctx N) : Prop :=
  (forall v x, In v (vars c) -> In x (var_values v) -> W x) /\ (forall f, In f (funs c) -> proper_tree (fun_ast f)).
Notation keeps P := (sat P (fun _ => True) True True).

Lemma proper_child a b : proper_tree a -> In b (children a) -> proper_tree b.
Proof. intros H Hb x Hx. apply H. econstructor; eauto. Qed.
Lemma proper_build a : proper_node a -> (forall b, In b (children a) -> proper_tree b) -> proper_tree a.
Proof. intros H1 H2 x Hx. inversion Hx as [|b ? Hb Hn]; subst; [exact H1|]. now apply (H2 b Hb). Qed.
Lemma w_scalar s : Q s -> W (Scalar s).
Proof. intros H. split; [apply wf_scalar|exact H]. Qed.
Lemma scalar_proper s : Q s -> proper_tree (AScalar s).
Proof. intros H. apply proper_build; [exact H|]. intros b []. Qed.
Lemma value_proper (v : V) : W v -> proper_tree (ast_from_value v).
Proof.
  intros [(k & Hk) Hq]. destruct v as [m|l|s], k; cbn in Hk; try easy; [| |now apply scalar_proper].
  - apply proper_build.
    + cbn. exists r, c. destruct Hk as (Hr & Hc & H1 & H2). repeat split; auto; [now rewrite map_length|].
      rewrite Forall_forall in *. intros x Hx. apply in_map_iff in Hx as (y & <- & Hy). rewrite map_length. auto.
    + cbn. intros b Hb. apply in_concat in Hb as (x & Hx & Hb). apply in_map_iff in Hx as (y & <- & Hy). apply in_map_iff in Hb as (z & <- & Hz).
      apply scalar_proper. cbn in Hq. rewrite Forall_forall in Hq. specialize (Hq y Hy). rewrite Forall_forall in Hq. auto.
  - apply proper_build.
    + cbn. destruct l; cbn in *; [lia|discriminate].
    + cbn. intros b Hb. apply in_map_iff in Hb as (z & <- & Hz). apply scalar_proper. cbn in Hq. rewrite Forall_forall in Hq. auto.
Qed.
Lemma op_w op (x y : V) : W x -> W y -> keeps (Forall W) (op_meaning op x y).
Proof.
  intros [Wx Qx] [Wy Qy]. pose proof (op_safe op x y Wx Wy) as H1. pose proof (op_q Q HQ op x y Qx Qy) as H2.
  destruct (op_meaning op x y); cbn in *; auto. rewrite Forall_forall in *. intros v Hv. split; auto.
Qed.
Lemma apply_op_w op (x y : V) : W x -> W y -> keeps (Forall W) (apply_op op x y).
Proof. intros Hx Hy. rewrite apply_op_meaning. unfold mathe. pose proof (op_w op x y Hx Hy) as H. destruct (op_meaning op x y); cbn in *; auto. Qed.
Lemma add_w (x y : V) : W x -> W y -> @sat EvalError _ W (fun _ => True) True True (mathe (add x y)).
Proof. intros Hx Hy. pose proof (op_w OAdd x y Hx Hy) as H. cbn [op_meaning] in H. unfold mathe. destruct (add x y); cbn in *; auto. now inversion H. Qed.
Lemma mult_w (x y : V) : W x -> W y -> @sat EvalError _ W (fun _ => True) True True (mathe (mult x y)).
Proof. intros Hx Hy. pose proof (op_w OMult x y Hx Hy) as H. cbn [op_meaning] in H. unfold mathe. destruct (mult x y); cbn in *; auto. now inversion H. Qed.
Lemma concatM_w {X} (f : X -> res EvalError (list V)) l : (forall x, In x l -> keeps (Forall W) (f x)) -> keeps (Forall W) (concatM f l).
Proof.
  intros H. unfold concatM. eapply (sat_bind (Forall (Forall W))); [now apply sat_mapM|]. intros ls Hls. cbn. apply Forall_concat. exact Hls.
Qed.
Lemma eps_q : Q eps. Proof. unfold eps, pow10. apply (qpowi Q HQ), (cl_of_Z Q HQ). Qed.
Lemma quotient_proper x y : W x -> W y -> proper_tree (quotient_ast x y).
Proof.
  intros Hx Hy. apply proper_build; [exact I|]. intros b [<-|[<-|[]]]; [|apply scalar_proper, eps_q].
  apply proper_build; [exact I|]. intros b [<-|[<-|[]]]; now apply value_proper.
Qed.

Section Ev.
Variable ev : AST N -> Ctx N -> res EvalError (list V).
Hypothesis Hev : forall b c, proper_tree b -> proper_context c -> keeps (Forall W) (ev b c).

Lemma add_samples_w (sums es : list V) : Forall W sums -> Forall W es -> keeps (Forall W) (add_samples sums es).
Proof.
  revert sums; induction es as [|e es IH]; intros [|s sums] Hs He; cbn [add_samples]; try exact Hs.
  - inversion He; subst. eapply (sat_bind (Forall W)); [now apply IH|]. cbn. auto.
  - inversion He; inversion Hs; subst. eapply (sat_bind W); [now apply add_w|]. intros a Ha.
    eapply (sat_bind (Forall W)); [now apply IH|]. cbn. auto.
Qed.
Lemma context_vars c vs : proper_context c -> (forall v x, In v vs -> In x (var_values v) -> W x) -> proper_context (mkCtx vs (funs c)).
Proof. intros [_ C2] H. now split. Qed.
Lemma integral_loop_w f e x c dx ub : Q dx -> proper_tree e -> proper_context c -> forall b sums, Q b -> Forall W sums ->
  keeps (Forall W) (integral_loop ev f e x c (remove_first x (vars c)) dx ub b sums).
Proof.
  intros Hd He Hc. induction f as [|f IH]; intros b sums Hb Hs; cbn [integral_loop]; [exact I|].
  destruct (nltb b ub); [|exact Hs].
  assert (H2 : Q (nof_Z 2)) by apply (cl_of_Z Q HQ).
  eapply (sat_bind (Forall W)).
  - apply Hev; [assumption|]. apply context_vars; [exact Hc|]. intros v w Hv Hw. apply in_app_iff in Hv as [Hv|[<-|[]]].
    + apply (proj1 Hc v); auto. eapply remove_first_in; eauto.
    + cbn in Hw. destruct Hw as [<-|[]]. apply w_scalar. apply (cl_div Q HQ); [|assumption]. apply (cl_add Q HQ); [assumption|]. now apply (cl_sub Q HQ).
  - intros es Hes. eapply (sat_bind (Forall W)); [now apply add_samples_w|]. intros. apply IH; [now apply (cl_add Q HQ)|assumption].
Qed.
Lemma integral_w f e x l u c : proper_tree e -> proper_context c -> W l -> W u -> keeps (Forall W) (calculate_integral ev f e x l u c).
Proof.
  intros He Hc [_ Hl] [_ Hu]. unfold calculate_integral. destruct l; try exact I. destruct u; try exact I. cbn in Hl, Hu.
  destruct (neqb s s0); [cbn; constructor; [apply w_scalar, (q0 Q HQ)|constructor]|].
  assert (G : forall lb ub, Q lb -> Q ub -> keeps (Forall W) (let dx := ndiv (nsub ub lb) (pow10 (PREC - 3)) in
        do sums <- integral_loop ev f e x c (remove_first x (vars c)) dx ub lb []; mapM (fun s => mathe (mult s (Scalar dx))) sums)).
  { intros lb ub Hlb Hub. cbv zeta. set (dx := ndiv _ _). assert (Hd : Q dx).
    { apply (cl_div Q HQ); [now apply (cl_sub Q HQ)|]. unfold pow10; apply (qpowi Q HQ), (cl_of_Z Q HQ). }
    eapply (sat_bind (Forall W)); [now apply integral_loop_w|]. intros sums Hs.
    apply sat_mapM. intros y Hy. rewrite Forall_forall in Hs. apply mult_w; auto using w_scalar. }
  destruct (nltb s0 s); now apply G.
Qed.
Lemma proper_remove c x : proper_context c -> proper_context (remove_var c x).
Proof. intros [C1 C2]. split; [|exact C2]. cbn. intros v w Hv. apply filter_In in Hv as [Hv _]. now apply C1. Qed.
Lemma proper_add c v : proper_context c -> Forall W (var_values v) -> proper_context (add_var c v).
Proof.
  intros [C1 C2] Hv. split; [|exact C2]. cbn. intros w y Hw Hy. apply in_app_iff in Hw as [Hw|[<-|[]]].
  - apply filter_In in Hw as [Hw _]. now apply (C1 w).
  - rewrite Forall_forall in Hv. now apply Hv.
Qed.
Lemma derivative_w e x a c : proper_tree e -> proper_context c -> W a -> keeps (Forall W) (fst (calculate_derivative ev e x a c)).
Proof.
  intros He Hc Ha. unfold calculate_derivative. destruct a; try exact I.
  set (c1 := add_var (remove_var c x) (mkVar x [Scalar s])).
  assert (H1 : proper_context c1) by (apply proper_add; [now apply proper_remove|repeat constructor; apply Ha]).
  pose proof (Hev e c1 He H1) as S1. destruct (ev e c1) as [fxs| | |]; try exact S1.
  set (c2 := add_var (remove_var c1 x) (mkVar x [Scalar (nadd s eps)])).
  assert (H2 : proper_context c2).
  { apply proper_add; [now apply proper_remove|]. constructor; [|constructor]. apply w_scalar. apply (cl_add Q HQ); [apply Ha|apply eps_q]. }
  pose proof (Hev e c2 He H2) as S2. destruct (ev e c2) as [fxhs| | |]; try exact S2.
  destruct (negb _); [exact I|]. cbn in S1, S2. rewrite Forall_forall in S1, S2.
  assert (S3 : @sat EvalError _ (Forall (Forall W)) (fun _ => True) True True
     (mapM (fun p => ev (quotient_ast (snd p) (fst p)) c2) (combine fxs fxhs))).
  { apply sat_mapM. intros [u w] Huw. pose proof (in_combine_l _ _ _ _ Huw) as Hu. pose proof (in_combine_r _ _ _ _ Huw) as Hw.
    apply Hev; [|exact H2]. cbn [fst snd]. apply quotient_proper; auto. }
  destruct (mapM _ (combine fxs fxhs)) as [rs| | |]; cbn in *; auto. now apply Forall_concat.
Qed.
Lemma derivative_newton_w e x a fx c : proper_tree e -> proper_context c -> W a -> (forall v, fx = Some v -> W v) ->
  keeps W (calculate_derivative_newton ev e x a fx c).
Proof.
  intros He Hc Ha Hfx. unfold calculate_derivative_newton. destruct a; try exact I.
  eapply (sat_bind W).
  - destruct fx; [cbn; auto|]. eapply (sat_bind (Forall W)); [|intros; now apply idx_keeps].
    apply Hev; [assumption|]. apply proper_add; [now apply proper_remove|repeat constructor; apply Ha].
  - intros v Hv. set (c1 := add_var _ _). assert (H1 : proper_context c1).
    { apply proper_add; [now apply proper_remove|]. constructor; [|constructor]. apply w_scalar. apply (cl_add Q HQ); [apply Ha|apply eps_q]. }
    eapply (sat_bind (Forall W)); [now apply Hev|]. intros vs Hvs. eapply (sat_bind W); [now apply idx_keeps|]. intros w Hw.
    eapply (sat_bind (Forall W)); [apply Hev; [now apply quotient_proper|assumption]|]. intros rs Hrs. now apply idx_keeps.
Qed.

(** The search variables: every value proper. *)
Definition xok (x : list (MVar N)) : Prop := Forall (fun v => Forall W (var_values v)) x.
Lemma gauss_q v : Qm v -> keeps Qr (gauss_algorithm v).
Proof.
  intros Hv. unfold gauss_algorithm. eapply (sat_bind (fun _ => True)); [apply row0_keeps|intros ? _]. destruct (negb _); [exact I|].
  eapply (sat_bind Qm); [now apply eliminate_q|]. intros w Hw. eapply (sat_bind Qm); [apply eliminate_q; [exact HQ|now apply flip_q]|]. intros w' Hw'.
  eapply (sat_bind Qr); [|intros; cbn; now apply Forall_rev]. apply sat_mapM. intros i _. eapply (sat_bind Qr); [now apply idx_keeps|]. intros r Hr.
  eapply (sat_bind Q); [now apply idx_keeps|]. intros y Hy. eapply (sat_bind Q); [now apply idx_keeps|]. intros p Hp. cbn. now apply (cl_div Q HQ).
Qed.
Lemma first_scalar_q v : Forall W (var_values v) -> keeps Q (first_scalar v).
Proof.
  intros H. unfold first_scalar. eapply (sat_bind W); [now apply idx_keeps|]. intros x [_ Hx]. apply unwrap_keeps. intros s E. eapply get_scalar_q; eauto.
Qed.
Lemma jacobi_w s x c fx : Forall proper_tree s -> xok x -> proper_context c -> Qr fx ->
  keeps (fun y => xok y /\ List.length y = List.length x) (jacobi_and_gauss ev s x c fx).
Proof.
  intros Hs Hx Hc Hf. unfold jacobi_and_gauss. eapply (sat_bind Qm).
  - apply sat_mapM. intros i _. eapply (sat_bind proper_tree); [now apply idx_keeps|]. intros e He.
    eapply (sat_bind Qr); [|intros row Hrow; exact Hrow].
    apply sat_mapM. intros j _. eapply (sat_bind (fun v => Forall W (var_values v))); [now apply idx_keeps|]. intros xj Hxj.
    eapply (sat_bind W); [now apply idx_keeps|]. intros at_ Hat. eapply (sat_bind Q); [now apply idx_keeps|]. intros f Hf'.
    eapply (sat_bind W).
    + apply derivative_newton_w; auto.
      * apply context_vars; [exact Hc|]. intros v w Hv Hw. apply in_app_iff in Hv as [Hv|Hv]; [now apply (proj1 Hc v)|].
        assert (Hin : In v x). { unfold others in Hv. apply in_app_iff in Hv as [Hv|Hv]; [rewrite <- (firstn_skipn j x)|rewrite <- (firstn_skipn (S j) x)]; apply in_app_iff; auto. }
        unfold xok in Hx. rewrite Forall_forall in Hx. specialize (Hx v Hin). rewrite Forall_forall in Hx. auto.
      * intros v E. injection E as <-. now apply w_scalar.
    + intros d [_ Hd]. apply unwrap_keeps. intros t E. eapply get_scalar_q; eauto.
  - intros jac Hj. eapply (sat_bind Qm).
    + apply sat_mapM. intros i _. eapply (sat_bind Qr); [now apply idx_keeps|]. intros row Hrow. eapply (sat_bind Q); [now apply idx_keeps|]. intros f Hf'.
      cbn. apply Forall_app. split; [assumption|]. constructor; [|constructor]. apply (cl_mul Q HQ); [apply (qm1 Q HQ)|assumption].
    + intros aug Haug. eapply (sat_bind Qr); [now apply gauss_q|]. intros d Hd.
      eapply sat_impl; [| | | |apply (sat_mapM_len (fun _ v => Forall W (var_values v)) (fun _ => True) True True)]; auto.
      { intros y Hy. cbn beta in Hy. split; [|apply BaseFacts.Forall2_length in Hy; rewrite seq_length in Hy; lia].
        eapply Forall2_right. exact Hy. }
      intros i _. eapply (sat_bind (fun v => Forall W (var_values v))); [now apply idx_keeps|]. intros xi Hxi. eapply (sat_bind Q); [now apply idx_keeps|]. intros di Hdi.
      eapply (sat_bind Q); [now apply first_scalar_q|]. intros t Ht. cbn. constructor; [|constructor]. apply w_scalar. now apply (cl_add Q HQ).
Qed.
Lemma eval_scalar_q c e : proper_tree e -> proper_context c -> keeps Q (eval_scalar ev c e).
Proof.
  intros He Hc. unfold eval_scalar. eapply (sat_bind (Forall W)); [now apply Hev|]. intros vs Hvs. eapply (sat_bind W); [now apply idx_keeps|].
  intros v [_ Hv]. apply unwrap_keeps. intros s E. eapply get_scalar_q; eauto.
Qed.
Lemma proper_add_all x : forall c, xok x -> proper_context c -> proper_context (add_all c x).
Proof. induction x as [|v x IH]; intros c Hx Hc; [exact Hc|]. inversion Hx; subst. cbn. apply IH; [assumption|]. now apply proper_add. Qed.
Lemma proper_remove_all (x : list (MVar N)) : forall c, proper_context c -> proper_context (remove_all c x).
Proof. induction x as [|v x IH]; intros c Hc; [exact Hc|]. cbn. apply IH. now apply proper_remove. Qed.
Definition newton_ok (n : nat) (p : res EvalError NewtonReturn * Ctx N) : Prop :=
  keeps (fun r => match r with NextX y | FinishedX y => xok y /\ List.length y = n end) (fst p) /\ proper_context (snd p).
Lemma newton_w s k x c : Forall proper_tree s -> Forall proper_tree k -> xok x -> proper_context c -> newton_ok (List.length x) (newton ev s k x c).
Proof.
  intros Hs Hk Hx Hc. unfold newton, newton_ok.
  assert (H1 := proper_add_all x c Hx Hc). assert (H2 := proper_remove_all x _ H1).
  assert (H3 := proper_add_all x _ Hx H2). assert (H4 := proper_remove_all x _ H3).
  assert (E1 : keeps Qr (mapM (eval_scalar ev (add_all c x)) s)).
  { apply sat_mapM. intros e He. rewrite Forall_forall in Hs. apply eval_scalar_q; auto. }
  destruct (mapM (eval_scalar ev (add_all c x)) s) as [fx|?| |]; try (split; [exact I|assumption]). cbn in E1.
  destruct (small fx).
  - destruct (mapM (eval_scalar ev _) k) as [cr|?| |]; try (split; [exact I|assumption]).
    destruct cr; [split; [cbn; auto|assumption]|]. destruct (small _); (split; [cbn; auto|assumption]).
  - pose proof (jacobi_w s x _ fx Hs Hx H2 E1) as J. destruct (jacobi_and_gauss ev s x _ fx) as [y|?| |]; try (split; [exact I|assumption]). cbn in J.
    match goal with |- context [mapM ?f ?l] => destruct (mapM f l) end; try (split; [exact I|assumption]). destruct (existsb _ _); (split; [cbn; auto|assumption]).
Qed.
Lemma newton_loop_w n s k m : 0 < m -> Forall proper_tree s -> Forall proper_tree k -> forall x c, List.length x = m -> xok x -> proper_context c ->
  keeps (fun r => (forall v, fst (fst r) = Some v -> W v) /\ proper_context (snd r)) (newton_loop ev n s k x c).
Proof.
  intros Hm Hs Hk. induction n as [|n IH]; intros x c Hl Hx Hc; cbn [newton_loop].
  - cbn. split; [discriminate|assumption].
  - destruct (newton_w s k x c Hs Hk Hx Hc) as [G1 G2]. destruct (newton ev s k x c) as [r c1]. cbn [fst snd] in *.
    destruct r as [[y|y]|e| |]; try exact I.
    + destruct G1 as [G1 G3]. apply IH; auto; congruence.
    + destruct G1 as [G1 G3]. eapply (sat_bind (fun rs => List.length rs = m /\ Qr rs)).
      * eapply sat_impl; [| | | |apply (sat_mapM_len (fun _ t => Q t) (fun _ => True) True True)]; auto.
        { intros rs Hrs. cbn beta in Hrs. split; [apply BaseFacts.Forall2_length in Hrs; congruence|].
          eapply Forall2_right. exact Hrs. }
        intros v Hv. apply first_scalar_q. unfold xok in G1. rewrite Forall_forall in G1. auto.
      * intros rs [Hrl Hrq]. assert (WV : W (Vector rs)). { split; [exists (KV m); cbn; auto|exact Hrq]. }
        destruct rs as [|t [|t' rs]]; cbn; (split; [|assumption]); intros v E; injection E as <-; auto. apply w_scalar. now inversion Hrq.
    + destruct e; cbn; auto; (split; [discriminate|assumption]).
Qed.
Lemma start_loop_w s k sv : sv <> [] -> Forall proper_tree s -> Forall proper_tree k -> forall js c r, proper_context c -> Forall W r ->
  keeps (Forall W) (start_loop ev js s k sv c r).
Proof.
  intros Hsv Hs Hk. induction js as [|j js IH]; intros c r Hc Hr; cbn [start_loop]; [exact Hr|].
  eapply sat_bind.
  - apply (newton_loop_w 1000 s k (List.length sv)); auto.
    + destruct sv; [congruence|cbn; lia].
    + now rewrite map_length.
    + unfold xok. apply Forall_map, Forall_forall. intros n _. cbn. constructor; [|constructor]. apply w_scalar, (cl_of_Z Q HQ).
  - intros [[o b] c1] [H1 H2]. cbn [fst snd] in *.
    assert (Hr' : Forall W (match o with Some v => r ++ [v] | None => r end)).
    { destruct o; [|assumption]. apply Forall_app. split; [assumption|]. constructor; [auto|constructor]. }
    destruct b; [exact Hr'|]. now apply IH.
Qed.
Lemma dedupe_in l v : In v (dedupe l) -> In v l.
Proof.
  unfold dedupe. assert (G : forall l acc, In v (fold_left (fun acc i => if existsb (fun j => value_eqb (value_round (PREC - 2) i) (value_round (PREC - 2) j)) acc
      then acc else acc ++ [i]) l acc) -> In v acc \/ In v l).
  { clear. induction l as [|w l IH]; intros acc; cbn [fold_left]; [auto|]. intros H. apply IH in H as [H|H]; [|right; now right].
    destruct (existsb _ acc); [now left|]. apply in_app_iff in H as [H|[<-|[]]]; [now left|right; now left]. }
  intros H. apply G in H as [[]|H]. exact H.
Qed.
Lemma insert_in key x l (v : V) : In v (insert_by key x l) -> v = x \/ In v l.
Proof. induction l as [|y l IH]; cbn; [intros [<-|[]]; auto|]. destruct (nltb _ _); cbn; intros [<-|H]; auto. apply IH in H as [H|H]; auto. Qed.
Lemma sort_w key l : Forall W l -> keeps (Forall W) (sort_key key l).
Proof.
  intros H. unfold sort_key. destruct (mapM _ l); try exact I. cbn [bind]. destruct (existsb _ _); [exact I|]. cbn [sat]. set (g := fun v => _). clearbody g.
  induction H as [|x l Hx H IH]; cbn [fold_right]; [constructor|]. apply Forall_forall. intros v Hv. apply insert_in in Hv as [->|Hv]; [assumption|].
  rewrite Forall_forall in IH. auto.
Qed.
Lemma slice_w {A} (P : A -> Prop) l a b : Forall P l -> @sat EvalError _ (Forall P) (fun _ => True) True True (slice l a b).
Proof. intros H. unfold slice. destruct (_ && _)%bool; [|exact I]. cbn. now apply Forall_firstn, Forall_skipn. Qed.
Lemma clean_w l : Forall W l -> keeps (Forall W) (clean_results l).
Proof.
  intros H. assert (Hd : Forall W (dedupe l)). { apply Forall_forall. intros v Hv. apply dedupe_in in Hv. rewrite Forall_forall in H. auto. }
  unfold clean_results. destruct l as [|r0 l]; [constructor|]. set (d := dedupe (r0 :: l)) in *. clearbody d.
  assert (G : forall key, keeps (Forall W) (if Nat.ltb 10 (List.length d) then
          do s <- sort_key (fun v => option_map nabs (key v)) d; do t <- slice s 0 10; sort_key key t else Ok d)).
  { intros key. destruct (Nat.ltb _ _); [|exact Hd]. eapply (sat_bind (Forall W)); [now apply sort_w|]. intros s Hs.
    eapply (sat_bind (Forall W)); [now apply slice_w|]. intros t Ht. now apply sort_w. }
  destruct r0; [exact Hd|apply G|apply G].
Qed.
Lemma split_w es comb : Forall proper_tree es -> keeps (fun p => Forall proper_tree (fst p) /\ Forall proper_tree (snd p)) (split_exprs es comb).
Proof.
  intros H. unfold split_exprs. eapply (sat_bind (fun s : list (AST N) * list (AST N) * nat => Forall proper_tree (fst (fst s)) /\ Forall proper_tree (snd (fst s)))).
  - apply sat_foldM; [cbn; auto|]. intros [[a b] r] j [Ha Hb] _. cbn [fst snd] in *. destruct (Nat.ltb _ _); [exact I|].
    eapply (sat_bind (fun p => proper_tree (fst p) /\ Forall proper_tree (snd p))).
    + unfold take_at. eapply (sat_bind proper_tree); [now apply idx_keeps|]. intros e He. cbn. split; [assumption|]. apply Forall_app. split; [now apply Forall_firstn|].
      exact (Forall_skipn proper_tree (S (j - r)) b Hb).
    + intros [e rest] [He Hrest]. cbn. split; [|assumption]. apply Forall_app. auto.
  - intros [[a b] r] G. exact G.
Qed.
Lemma comb_w sv es c : sv <> [] -> Forall proper_tree es -> proper_context c -> forall combs, keeps (Forall W) (comb_loop ev combs es c sv).
Proof.
  intros Hsv Hes Hc. induction combs as [|i combs IH]; cbn [comb_loop]; [constructor|].
  eapply sat_bind; [apply split_w; exact Hes|]. intros [s k] [Hs Hk]. cbn [fst snd] in *.
  eapply (sat_bind (Forall W)); [apply start_loop_w; auto|]. intros r Hr. eapply (sat_bind (Forall W)); [now apply clean_w|].
  intros cl Hcl. destruct cl; [exact IH|exact Hcl].
Qed.
Lemma proper_fold_add (sv : list str) : forall c, proper_context c -> proper_context (fold_left (fun c n => add_var c (mkVar n [Scalar nprobe])) sv c).
Proof.
  induction sv as [|n sv IH]; intros c Hc; [exact Hc|]. cbn. apply IH. apply proper_add; [exact Hc|]. cbn. constructor; [|constructor]. apply w_scalar, (cl_probe Q HQ).
Qed.
Lemma proper_fold_remove (sv : list str) : forall c, proper_context c -> proper_context (fold_left remove_var sv c).
Proof. induction sv as [|n sv IH]; intros c Hc; [exact Hc|]. cbn. apply IH. now apply proper_remove. Qed.
Lemma solve_w es c sv : sv <> [] -> Forall proper_tree es -> proper_context c -> keeps (Forall W) (do rf <- rf_new ev es c sv; find_roots ev rf).
Proof.
  intros Hsv Hes Hc. eapply (sat_bind (fun rf => rf_search_vars rf = sv /\ Forall proper_tree (rf_expressions rf) /\ proper_context (rf_context rf))).
  - unfold rf_new. destruct es as [|e0 es]; [exact I|]. destruct (negb _); [exact I|]. destruct (existsb _ sv); [exact I|]. destruct (Nat.ltb _ _); [exact I|].
    cbv zeta. destruct (ev e0 _); try exact I. cbn [bind]. destruct (@idx EvalError _ a 0) as [v|?| |]; try exact I. cbn [bind]. destruct v; try exact I. cbn.
    split; [reflexivity|]. split; [assumption|]. apply proper_fold_remove. now apply proper_fold_add.
  - intros rf (E & He & Hcc). unfold find_roots. rewrite E. now apply comb_w.
Qed.
End Ev.

Lemma scalars_q e (l : list V) : Forall W l -> @sat EvalError _ Qr (fun _ => True) True True (scalars_or e l).
Proof.
  intros H. unfold scalars_or. apply sat_mapM. intros v Hv. rewrite Forall_forall in H. destruct (H v Hv) as [_ G].
  destruct (get_scalar v) eqn:E; [|exact I]. exact (get_scalar_q Q v t G E).
Qed.
Lemma choice_q ls t : Forall Qr ls -> In t (cart_prod ls) -> Qr t.
Proof.
  intros H Ht. rewrite cart_prod_choices in Ht. apply choices_in in Ht. revert H. induction Ht as [|a b la lb Hab Ht IH]; intros Hq; constructor; inversion Hq as [|? ? Q1 Q2]; subst; auto.
  rewrite Forall_forall in Q1. auto.
Qed.
Lemma proper_call c params (p : list V) : proper_context c -> Forall W p -> proper_context (mkCtx (call_vars params p (vars c)) (funs c)).
Proof.
  intros Hc Hp. apply context_vars; [exact Hc|]. intros v x Hv Hx. apply push_in in Hv as [Hv|Hv]; [|now apply (proj1 Hc v)].
  apply in_map_iff in Hv as ([n w] & <- & Hv). apply in_combine_r in Hv. cbn in Hx. destruct Hx as [<-|[]]. rewrite Forall_forall in Hp. auto.
Qed.
Theorem eval_rec_w f : forall b c l, proper_tree b -> proper_context c -> keeps (Forall W) (eval_rec f b c l).
Proof.
  induction f as [|f IH]; intros b c l Hb Hc; [exact I|]. cbn [eval_rec].
  pose proof (Hb b (Node_here _)) as Hn. pose proof (fun x => proper_child b x Hb) as Hch.
  destruct b; cbn [children proper_node] in Hch, Hn.
  - cbn. constructor; [now apply w_scalar|constructor].
  - eapply (sat_bind (fun ls => List.length ls = List.length v /\ Forall Qr ls)).
    + eapply sat_impl; [| | | |apply (sat_mapM_len (fun _ q => Qr q) (fun _ => True) True True)]; auto.
      { intros ls H. cbn beta in H. split; [symmetry; eapply BaseFacts.Forall2_length; exact H|eapply Forall2_right; exact H]. }
      intros x Hx. eapply sat_bind; [apply IH; auto|]. intros; now apply scalars_q.
    + intros ls [Hls Hq]. cbn. apply Forall_forall. intros w Hw. apply in_map_iff in Hw as (t & <- & Ht). pose proof (choice_q _ _ Hq Ht) as Hqt. rewrite cart_prod_choices in Ht.
      apply choices_in in Ht. apply BaseFacts.Forall2_length in Ht. split; [|exact Hqt]. exists (KV (List.length t)). cbn. split; [|reflexivity].
      destruct v; [congruence|]. cbn in Hls. lia.
  - destruct Hn as (r & k & Hr & Hk & Hm1 & Hm2).
    eapply (sat_bind (fun ls => List.length ls = r /\ Forall (fun row => List.length row = k) ls /\ Forall (Forall Qr) ls)).
    + eapply sat_impl; [| | | |apply (sat_mapM_len (fun row (ls : list (list T)) => List.length ls = List.length row /\ Forall Qr ls) (fun _ => True) True True)]; auto.
      { intros ls H. split; [apply BaseFacts.Forall2_length in H; congruence|]. clear -H Hm2.
        induction H as [|a b la lb [H1 H2] H IH]; inversion Hm2; subst; [auto|]. destruct (IH H5). split; constructor; auto; congruence. }
      intros row Hrow. eapply sat_impl; [| | | |apply (sat_mapM_len (fun _ q => Qr q) (fun _ => True) True True)]; auto.
      { intros ls H. cbn beta in H. split; [symmetry; eapply BaseFacts.Forall2_length; exact H|eapply Forall2_right; exact H]. }
      intros x Hx. eapply sat_bind; [apply IH; auto; apply Hch, in_concat; eauto|]. intros; now apply scalars_q.
    + intros ls (Hls1 & Hls2 & Hls3). cbn. apply Forall_forall. intros w Hw. apply in_map_iff in Hw as (t & <- & Ht). rewrite cart_prod_choices in Ht.
      apply choices_in in Ht.
      assert (Hrow : forall row, In row t -> exists fields, In fields ls /\ In row (cart_prod fields)).
      { intros row Hrow. apply In_nth_error in Hrow as (i & Hi). destruct (Forall2_nth _ _ _ _ _ Ht Hi) as (cp & Hcp & Hin).
        apply nth_error_In in Hcp. apply in_map_iff in Hcp as (fields & <- & Hfields). eauto. }
      split.
      * exists (KM r k). cbn. repeat split; auto.
        -- apply BaseFacts.Forall2_length in Ht. rewrite map_length in Ht. congruence.
        -- apply Forall_forall. intros row Hr'. destruct (Hrow row Hr') as (fields & Hf & Hin).
           rewrite cart_prod_choices in Hin. apply choices_in in Hin. apply BaseFacts.Forall2_length in Hin.
           rewrite Forall_forall in Hls2. rewrite Hin. auto.
      * cbn. apply Forall_forall. intros row Hr'. destruct (Hrow row Hr') as (fields & Hf & Hin). rewrite Forall_forall in Hls3. eapply choice_q; [|exact Hin]. auto.
  - apply concatM_w. intros x Hx. apply IH; auto.
  - unfold lookup_var. destruct (find _ _) eqn:Ef; [|exact I]. apply find_some in Ef as [Ef _]. cbn. apply Forall_forall. intros x. now apply (proj1 Hc).
  - destruct (str_eqb l name); [exact I|]. unfold lookup_fun. destruct (find _ _) as [fn|] eqn:Ef; [|exact I]. apply find_some in Ef as [Ef _].
    destruct (negb _); [exact I|].
    eapply (sat_bind (Forall (Forall W))); [apply sat_mapM; intros; apply IH; auto|]. intros args Hargs.
    apply concatM_w. intros p Hp. apply IH; [now apply (proj2 Hc)|]. apply proper_call; [exact Hc|].
    rewrite cart_prod_choices in Hp. apply choices_in in Hp. clear -Hp Hargs. induction Hp; inversion Hargs; subst; constructor; auto.
    rewrite Forall_forall in *. auto.
  - eapply (sat_bind (Forall W)); [apply IH; auto; apply Hch; cbn; auto|]. intros lv Hlv.
    eapply (sat_bind (Forall W)); [apply IH; auto; apply Hch; cbn; auto|]. intros rv Hrv.
    rewrite Forall_forall in Hlv, Hrv.
    apply concatM_w. intros x Hx. apply concatM_w. intros y Hy. apply apply_op_w; auto.
  - eapply (sat_bind (Forall W)); [apply IH; auto; apply Hch; cbn; auto|]. intros lv Hlv.
    eapply (sat_bind (Forall W)); [apply IH; auto; apply Hch; cbn; auto|]. intros rv Hrv.
    rewrite Forall_forall in Hlv, Hrv.
    apply concatM_w. intros x Hx. apply concatM_w. intros y Hy. apply integral_w; auto. apply Hch; cbn; auto.
  - eapply (sat_bind (Forall W)); [apply IH; auto; apply Hch; cbn; auto|]. intros lv Hlv. rewrite Forall_forall in Hlv.
    apply concatM_w. intros x Hx. apply derivative_w; auto. apply Hch; cbn; auto.
  - apply solve_w; auto. apply Forall_map. apply Forall_forall. intros q Hq. apply proper_build; [exact I|].
    cbn. intros b Hb'. apply Hch. apply in_flat_map. exists q. split; [exact Hq|]. cbn. tauto.
Qed.
End Eval.
