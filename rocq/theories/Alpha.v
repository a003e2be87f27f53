(** * Alpha: functions that differ in their local names, and bound variables. *)
From Coq Require Import List NArith ZArith Bool Lia Arith String.
From Verif Require Import Base BaseFacts F64 Num Types Maths Helpers Parser Eval EvalFuel SpecEval PropLatex ContextProofs RenameSpec Rename.
Import ListNotations.
Local Open Scope list_scope.

Section Ren.
Context {N : Num}.
Lemma map_id_in {A} (f : A -> A) l : Forall (fun x => f x = x) l -> map f l = l.
Proof. induction 1; cbn; congruence. Qed.
Lemma map_comp_in {A} (f g h : A -> A) l : Forall (fun x => f (g x) = h x) l -> map f (map g l) = map h l.
Proof. induction 1; cbn; congruence. Qed.
Lemma ren_comp (r1 s1 r2 s2 r3 s3 : str -> str) (a : AST N) : (forall n, r1 (r2 n) = r3 n) -> (forall n, s1 (s2 n) = s3 n) ->
  ren r1 s1 (ren r2 s2 a) = ren r3 s3 a.
Proof.
  intros Hr Hs. induction a using tree_ind; cbn [ren]; rewrite ?Hr, ?Hs; try congruence.
  - f_equal. now apply map_comp_in.
  - f_equal. apply map_comp_in. eapply Forall_impl; [|exact H]. intros r Hrow. now apply map_comp_in.
  - f_equal. now apply map_comp_in.
  - f_equal. now apply map_comp_in.
  - f_equal.
    + induction H as [|q qs [H1 H2] H IH]; cbn [map fst snd]; [reflexivity|]. now rewrite H1, H2, IH.
    + rewrite map_map. now apply map_ext.
Qed.
Lemma ren_id (r s : str -> str) (a : AST N) : (forall n, r n = n) -> (forall n, s n = n) -> ren r s a = a.
Proof.
  intros Hr Hs. induction a using tree_ind; cbn [ren]; rewrite ?Hr, ?Hs; try congruence.
  - f_equal. now apply map_id_in.
  - f_equal. apply map_id_in. eapply Forall_impl; [|exact H]. intros row Hrow. now apply map_id_in.
  - f_equal. now apply map_id_in.
  - f_equal. now apply map_id_in.
  - f_equal.
    + induction H as [|q qs [H1 H2] H IH]; cbn [map fst snd]; [reflexivity|]. rewrite H1, H2, IH. now destruct q.
    + rewrite <- (map_id xs) at 2. now apply map_ext.
Qed.
Lemma mentions_ren r s (a : AST N) n : In n (mentions (ren r s a)) -> exists m, In m (mentions a) /\ n = r m.
Proof.
  assert (L : forall l, Forall (fun a => In n (mentions (ren r s a)) -> exists m, In m (mentions a) /\ n = r m) l ->
            In n (flat_map mentions (map (ren r s) l)) -> exists m, In m (flat_map mentions l) /\ n = r m).
  { intros l Hl Hn. apply in_flat_map in Hn as (b & Hb & Hn). apply in_map_iff in Hb as (a' & <- & Ha). rewrite Forall_forall in Hl.
    destruct (Hl _ Ha Hn) as (m & Hm & ->). exists m. split; [|reflexivity]. apply in_flat_map. eauto. }
  induction a using tree_ind; cbn [ren mentions]; intros Hn; auto.
  - destruct Hn.
  - apply in_flat_map in Hn as (row & Hrow & Hn). apply in_map_iff in Hrow as (row' & <- & Ha). rewrite Forall_forall in H.
    destruct (L _ (H _ Ha) Hn) as (k & Hk & ->). exists k. split; [|reflexivity]. apply in_flat_map. eauto.
  - destruct Hn as [<-|[]]. eexists. split; [now left|reflexivity].
  - apply in_app_iff in Hn as [Hn|Hn]; [destruct (IHa1 Hn) as (m & Hm & ->)|destruct (IHa2 Hn) as (m & Hm & ->)]; exists m; split; auto; apply in_app_iff; auto.
  - destruct Hn as [<-|Hn]; [eexists; split; [now left|reflexivity]|]. rewrite !in_app_iff in Hn.
    destruct Hn as [Hn|[Hn|Hn]]; [destruct (IHa1 Hn) as (m & Hm & ->)|destruct (IHa2 Hn) as (m & Hm & ->)|destruct (IHa3 Hn) as (m & Hm & ->)];
      exists m; split; auto; right; rewrite !in_app_iff; auto.
  - destruct Hn as [<-|Hn]; [eexists; split; [now left|reflexivity]|]. rewrite !in_app_iff in Hn.
    destruct Hn as [Hn|Hn]; [destruct (IHa1 Hn) as (m & Hm & ->)|destruct (IHa2 Hn) as (m & Hm & ->)]; exists m; split; auto; right; rewrite !in_app_iff; auto.
  - apply in_app_iff in Hn as [Hn|Hn].
    + apply in_map_iff in Hn as (m & <- & Hm). exists m. split; [|reflexivity]. apply in_app_iff; auto.
    + apply in_flat_map in Hn as (q' & Hq' & Hn). apply in_map_iff in Hq' as (q & <- & Hq). rewrite Forall_forall in H. destruct (H _ Hq) as [H1 H2]. cbn [fst snd] in Hn.
      apply in_app_iff in Hn as [Hn|Hn]; [destruct (H1 Hn) as (m & Hm & ->)|destruct (H2 Hn) as (m & Hm & ->)]; exists m; (split; [|reflexivity]);
        apply in_app_iff; right; apply in_flat_map; exists q; (split; [exact Hq|]); apply in_app_iff; auto.
Qed.
Lemma inverse_inj f g : inverse f g -> injective f.
Proof. intros [H _] a b E. now rewrite <- (H a), <- (H b), E. Qed.
Lemma named_ren rho n (l : list (MVar N)) : injective rho -> rho n = n -> named n (map (ren_var rho) l) = named n l.
Proof.
  intros Hi Hn. unfold named. induction l as [|v l IH]; cbn [map filter]; [reflexivity|]. cbn [ren_var var_name].
  destruct (str_eqb_spec (var_name v) n) as [E|E].
  - rewrite E, Hn, str_eqb_refl, IH. f_equal. unfold ren_var. rewrite E, Hn, <- E. now destruct v.
  - assert (E' : rho (var_name v) <> n) by (intros F; apply E, Hi; congruence). apply str_eqb_neq in E'. now rewrite E', IH.
Qed.
End Ren.

Section Forget.
Context {N : Num} {En : Env}.
Notation V := (Value N).
Lemma forget_ren {A} rho (r : res EvalError A) : forget (ren_result rho (fun n => n) r) = forget r.
Proof. destruct r as [a|e| |]; try reflexivity. destruct e; reflexivity. Qed.
Lemma forget_bind {A B} (r1 r2 : res EvalError A) (k1 k2 : A -> res EvalError B) :
  forget r1 = forget r2 -> (forall a, r1 = Ok a -> forget (k1 a) = forget (k2 a)) -> forget (bind r1 k1) = forget (bind r2 k2).
Proof.
  intros H Hk. destruct r1 as [a|e| |], r2 as [a'|e'| |]; cbn in H; try discriminate; cbn [bind]; try reflexivity; [|cbn; congruence].
  injection H as <-. auto.
Qed.
Lemma forget_mapM {A B} (f g : A -> res EvalError B) l : (forall a, In a l -> forget (f a) = forget (g a)) -> forget (mapM f l) = forget (mapM g l).
Proof.
  induction l as [|x l IH]; intros H; cbn [mapM]; [reflexivity|]. apply forget_bind; [apply H; now left|]. intros y _.
  apply forget_bind; [apply IH; intros; apply H; now right|]. reflexivity.
Qed.
Lemma forget_concatM {A B} (f g : A -> res EvalError (list B)) l : (forall a, In a l -> forget (f a) = forget (g a)) -> forget (concatM f l) = forget (concatM g l).
Proof. intros H. unfold concatM. apply forget_bind; [now apply forget_mapM|reflexivity]. Qed.
Lemma ctx_id (c : Ctx N) : ren_ctx (fun n => n) (fun n => n) c = c.
Proof.
  destruct c as [vs fs]. unfold ren_ctx. cbn [vars funs]. f_equal.
  - rewrite <- (map_id vs) at 2. apply map_ext. now intros [].
  - rewrite <- (map_id fs) at 2. apply map_ext. intros [n a i]. unfold ren_fun. cbn. now rewrite ren_id, map_id.
Qed.

Definition alpha_funs (U : str -> Prop) (F1 F2 : list (MFun N)) : Prop :=
  Forall2 (alpha U) F1 F2 /\ Forall (fun fn => within (fun n => In n (fun_inputs fn) \/ U n) (fun_ast fn)) F1.
Lemma alpha_lookup U c1 c2 n : alpha_funs U (funs c1) (funs c2) ->
  match lookup_fun c1 n, lookup_fun c2 n with
  | Some f1, Some f2 => alpha U f1 f2 /\ within (fun n => In n (fun_inputs f1) \/ U n) (fun_ast f1)
  | None, None => True
  | _, _ => False
  end.
Proof.
  unfold lookup_fun. generalize (funs c1) as F1, (funs c2) as F2. intros F1 F2 [H HW]. revert HW. induction H as [|f1 f2 F1 F2 H12 H IH]; intros HW; cbn [find]; [exact I|]. inversion HW; subst.
  destruct H12 as (rho & rho' & Hr & HU & ->). cbn [fun_name]. destruct (str_eqb (fun_name f1) n); [|exact (IH H3)]. split; [|assumption]. exists rho, rho'. auto.
Qed.

(** The loops, for an evaluator that forgets. *)
Section Loops.
Variable ev : AST N -> Ctx N -> res EvalError (list V).
Let ev' b c := forget (ev b c).
Lemma Hev0 : forall b c, ev' (ren (fun n => n) (fun n => n) b) (ren_ctx (fun n => n) (fun n => n) c) = ren_result (fun _ => []) (fun n => n) (ev b c).
Proof. intros b c. rewrite ren_id by reflexivity. now rewrite ctx_id. Qed.
Lemma id_inj : injective (fun n => n). Proof. intros a b E. exact E. Qed.
Lemma forget_integral f e x l u c : forget (calculate_integral ev f e x l u c) = calculate_integral ev' f e x l u c.
Proof. pose proof (integral_ren (fun n => n) (fun n => n) _ _ id_inj ev ev' Hev0 f e x l u c) as H. rewrite ren_id, ctx_id in H by reflexivity. now symmetry. Qed.
Lemma forget_derivative e x a c : forget (fst (calculate_derivative ev e x a c)) = fst (calculate_derivative ev' e x a c).
Proof. pose proof (derivative_ren (fun n => n) (fun n => n) _ _ id_inj ev ev' Hev0 e x a c) as H. rewrite ren_id, ctx_id in H by reflexivity. now symmetry. Qed.
Lemma forget_solve qs c xs : forget (solve ev qs c xs) = solve ev' qs c xs.
Proof.
  unfold solve. pose proof (solve_ren (fun n => n) (fun n => n) _ _ id_inj ev ev' Hev0 (map (fun i => AOp OSub (fst i) (snd i)) qs) c xs) as H.
  rewrite ctx_id in H. rewrite map_id in H. rewrite (map_id_in (ren _ _)) in H by (apply Forall_forall; intros; now apply ren_id). now symmetry.
Qed.
End Loops.

Theorem eval_alpha (U : str -> Prop) f : forall (S : str -> Prop), (forall m, U m -> S m) -> forall b c1 c2 l,
  within S b -> agree S (alpha_funs U) c1 c2 -> forget (eval_rec f b c1 l) = forget (eval_rec f b c2 l).
Proof.
  induction f as [|f IHf]; intros S HU b c1 c2 last Hb Hc; [reflexivity|]. pose proof (IHf S HU) as IH.
  assert (Hin : forall (l : list (AST N)) e, (forall n, In n (flat_map mentions l) -> S n) -> In e l -> within S e).
  { intros l e Hl He n Hn. apply Hl, in_flat_map; eauto. }
  cbn [eval_rec]. destruct b as [s|v|m|l|name|name inputs|op l r|e x lb ub|e x a|eqs sv]; unfold within in Hb; cbn [mentions] in Hb.
  - reflexivity.
  - apply forget_bind; [|reflexivity]. apply forget_mapM. intros i Hi. apply forget_bind; [|reflexivity]. apply IH; eauto.
  - apply forget_bind; [|reflexivity]. apply forget_mapM. intros i Hi. apply forget_mapM. intros j Hj. apply forget_bind; [|reflexivity]. apply IH; [|exact Hc].
    intros n Hn. apply Hb, in_flat_map. exists i; split; [exact Hi|]. apply in_flat_map; eauto.
  - apply forget_concatM. intros i Hi. apply IH; eauto.
  - rewrite !lookup_named. destruct Hc as [H _]. rewrite (H name); [reflexivity|]. apply Hb; now left.
  - destruct (str_eqb last name); [reflexivity|]. pose proof Hc as [H1 H2]. pose proof (alpha_lookup U c1 c2 name H2) as HL.
    destruct (lookup_fun c1 name) as [fn|], (lookup_fun c2 name) as [fn'|]; try contradiction; [|reflexivity].
    destruct HL as [(rho & rho' & Hinv & Hfix & ->) HW]. cbn [fun_inputs fun_ast]. rewrite map_length.
    destruct (Nat.eqb_spec (List.length inputs) (List.length (fun_inputs fn))) as [Hlen|]; cbn [negb]; [|reflexivity].
    apply forget_bind; [apply forget_mapM; intros i Hi; apply IH; eauto|]. intros args Ea. apply mapM_length in Ea.
    apply forget_concatM. intros p Hp. apply cart_prod_length in Hp.
    pose proof (inverse_inj _ _ Hinv) as Hinj.
    rewrite <- (forget_ren rho (eval_rec f (fun_ast fn) _ name)), <- eval_ren by (auto using id_inj).
    apply (IHf (fun m => In m (map rho (fun_inputs fn)) \/ U m)); [auto| |].
    + intros n Hn. apply mentions_ren in Hn as (k & Hk & ->). destruct (HW k Hk) as [Hp'|Hu]; [left; now apply in_map|right]. now rewrite Hfix.
    + split.
      * intros m Hm. cbn [vars ren_ctx]. rewrite ren_call_vars by exact Hinj. rewrite !named_call_vars. destruct Hm as [Hm|Hm].
        -- pose proof (named_params m (map rho (fun_inputs fn)) p ltac:(rewrite map_length; lia) Hm) as Hne. destruct (named m (map _ _)); [contradiction|reflexivity].
        -- rewrite named_ren by auto. rewrite (H1 m) by auto. reflexivity.
      * cbn [funs ren_ctx]. destruct H2 as [HA HWs]. split.
        -- clear - HA Hinv Hfix. induction HA as [|g1 g2 F1 F2 H12 HA IHA]; cbn [map]; constructor; [|exact IHA].
           destruct H12 as (r2 & r2' & Hi2 & Hf2 & ->). destruct Hinv as [I1 I2], Hi2 as [J1 J2].
           exists (fun n => r2 (rho' n)), (fun n => rho (r2' n)). split; [|split].
           ++ split; intros n; [now rewrite J1, I2|now rewrite I1, J2].
           ++ intros n Hn. rewrite <- (Hfix n Hn) at 1. rewrite I1. auto.
           ++ unfold ren_fun, ren_vars. cbn [fun_name fun_ast fun_inputs]. f_equal.
              ** symmetry. apply ren_comp; [|reflexivity]. intros n. now rewrite I1.
              ** rewrite map_map. apply map_ext. intros n. now rewrite I1.
        -- apply Forall_map. eapply Forall_impl; [|exact HWs]. intros g Hg n Hn. cbn [ren_fun fun_ast fun_inputs] in *.
           apply mentions_ren in Hn as (k & Hk & ->). destruct (Hg k Hk) as [Hp'|Hu]; [left; now apply in_map|right]. now rewrite Hfix.
  - assert (Hl : within S l) by (intros n Hn; apply Hb, in_app_iff; auto).
    assert (Hr : within S r) by (intros n Hn; apply Hb, in_app_iff; auto).
    apply forget_bind; [now apply IH|]. intros lv _. apply forget_bind; [now apply IH|]. reflexivity.
  - assert (He : within S e) by (intros n Hn; apply Hb; right; apply in_app_iff; auto).
    apply forget_bind; [apply IH; auto; intros n Hn; apply Hb; right; apply in_app_iff; right; apply in_app_iff; auto|]. intros lvs _.
    apply forget_bind; [apply IH; auto; intros n Hn; apply Hb; right; apply in_app_iff; right; apply in_app_iff; auto|]. intros uvs _.
    apply forget_concatM. intros i _. apply forget_concatM. intros j _. rewrite !forget_integral.
    apply (integral_agree S (alpha_funs U)); auto.
  - assert (He : within S e) by (intros n Hn; apply Hb; right; apply in_app_iff; auto).
    apply forget_bind; [apply IH; auto; intros n Hn; apply Hb; right; apply in_app_iff; auto|]. intros avs _.
    apply forget_concatM. intros i _. rewrite !forget_derivative. apply (derivative_agree S (alpha_funs U)); auto.
  - change (forget (solve (fun b c => eval_rec f b c []) eqs c1 sv) = forget (solve (fun b c => eval_rec f b c []) eqs c2 sv)). rewrite !forget_solve.
    apply (solve_agree S (alpha_funs U)); auto.
    + intros e n He Hn. apply Hb, in_app_iff. right. apply in_flat_map; eauto.
    + intros n Hn. apply Hb, in_app_iff; auto.
Qed.
End Forget.
