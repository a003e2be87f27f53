(** * PropKinds: C71 - expressions that pass a static check of kinds evaluate
    without error, to the predicted kind and number of values. *)
From Coq Require Import List NArith ZArith Bool String Arith Lia.
From Verif Require Import Base BaseFacts F64 Num Types Maths Parser Eval EvalFuel SpecEval EvalProofs PropEval GrammarSpec ParserSpec ShapeSpec
  MathsForms Shapes CalcSpec CalcProofs KindSpec Toy.
Import ListNotations.
Local Open Scope list_scope.

Section Gen.
Context {N : Num} {En : Env}.
Notation V := (Value N).

(** [vs] are [m] values of kind [k]. *)
Definition of_kind (vs : list V) (km : kinds) : Prop :=
  List.length vs = snd km /\ Forall (fun v => has_kind v (fst km)) vs.
(** The variables of [c] are of the kinds in [G]. *)
Definition fits (c : Ctx N) (G : str -> option kinds) : Prop :=
  forall n km, G n = Some km -> exists w, lookup_var c n = Some w /\ of_kind (var_values w) km.

Lemma kind_eqb_eq a b : kind_eqb a b = true -> a = b.
Proof.
  destruct a, b; cbn; try discriminate; auto.
  - intros H. apply Nat.eqb_eq in H. congruence.
  - intros H. apply andb_true_iff in H as [H1 H2]. apply Nat.eqb_eq in H1, H2. congruence.
Qed.
Lemma all_some_map {A B} (f : A -> option B) l xs : all_some (map f l) = Some xs -> Forall2 (fun a b => f a = Some b) l xs.
Proof.
  revert xs; induction l as [|a l IH]; cbn; intros xs H.
  - injection H as <-. constructor.
  - destruct (f a) eqn:E; [|discriminate]. destruct (all_some (map f l)); [|discriminate]. injection H as <-. constructor; auto.
Qed.
Lemma all_of_inv k l ms : all_of k l = Some ms -> l = Some (map (fun m => (k, m)) ms).
Proof.
  destruct l as [l|]; cbn; [|discriminate]. destruct (forallb (fun km => kind_eqb (fst km) k) l) eqn:E; [|discriminate]. intros [= <-]. f_equal.
  rewrite forallb_forall in E. rewrite map_map. symmetry. rewrite <- map_id. apply map_ext_in. intros [k' m] Hin.
  apply E in Hin. cbn in Hin. apply kind_eqb_eq in Hin. cbn. congruence.
Qed.

Lemma scalars_of (vs : list V) : Forall (fun v => has_kind v KS) vs -> exists ss, vs = map Scalar ss.
Proof.
  induction 1 as [|v vs Hv _ [ss ->]]; [now exists []|]. apply has_kind_S in Hv as [s ->]. now exists (s :: ss).
Qed.
Lemma Forall2_ex {A B} (P : A -> B -> Prop) l : Forall (fun a => exists b, P a b) l -> exists bs, Forall2 P l bs.
Proof. induction 1 as [|a l [b Hb] _ [bs H]]; [exists []; constructor|exists (b :: bs); constructor; auto]. Qed.
Lemma Forall2_Forall2_ex {A B C} (P : A -> B -> Prop) (Q : A -> B -> C -> Prop) la lb : Forall2 P la lb ->
  (forall a b, P a b -> exists c, Q a b c) -> exists cs, Forall2 (fun a c => exists b, P a b /\ Q a b c) la cs /\ Forall2 (fun b c => exists a, P a b /\ Q a b c) lb cs.
Proof.
  intros H K. induction H as [|a b la lb Hab H (cs & H1 & H2)]; [exists []; split; constructor|].
  destruct (K a b Hab) as [c Hc]. exists (c :: cs). split; constructor; eauto.
Qed.
Lemma choices_count {A} (ls : list (list A)) ms : Forall2 (fun l m => List.length l = m) ls ms -> List.length (choices ls) = product ms.
Proof.
  intros H. rewrite choices_length. unfold product. f_equal. induction H; cbn; congruence.
Qed.
Lemma choices_width {A} (ls : list (list A)) t : In t (choices ls) -> List.length t = List.length ls.
Proof. intros H. apply choices_in in H. exact (Forall2_length H). Qed.
Lemma concat_count {A} (ls : list (list A)) ms : Forall2 (fun l m => List.length l = m) ls ms -> List.length (List.concat ls) = sum ms.
Proof. induction 1; cbn; [reflexivity|]. rewrite app_length. unfold sum in *. cbn. congruence. Qed.
Lemma concat_const {A} (ls : list (list A)) m : Forall (fun l => List.length l = m) ls -> List.length (List.concat ls) = List.length ls * m.
Proof. induction 1; cbn; [reflexivity|]. rewrite app_length. lia. Qed.
Lemma product_app a b : product (a ++ b) = product a * product b.
Proof. unfold product. induction a as [|x a IHa]; cbn [app fold_right]; [lia|]. rewrite IHa. lia. Qed.

Lemma Forall_concat {A} (P : A -> Prop) ls : Forall (Forall P) ls -> Forall P (List.concat ls).
Proof. induction 1; cbn; [constructor|]. apply Forall_app; auto. Qed.

(** Splitting a flat list of counts along the rows. *)
Lemma Forall2_concat {A B} (P : A -> B -> Prop) (rows : list (list A)) bs : Forall2 P (List.concat rows) bs ->
  exists brows, bs = List.concat brows /\ Forall2 (Forall2 P) rows brows.
Proof.
  revert bs; induction rows as [|r rows IH]; cbn; intros bs H.
  - inversion H. exists []. split; [reflexivity|constructor].
  - apply Forall2_app_inv_l in H as (b1 & b2 & H1 & H2 & ->). destruct (IH _ H2) as (br & -> & H3). exists (b1 :: br). split; [reflexivity|]. constructor; auto.
Qed.

Lemma operator_ok op (x y : V) k1 k2 k : operator op k1 k2 = Some k -> has_kind x k1 -> has_kind y k2 ->
  exists vs, op_meaning op x y = Ok vs /\ List.length vs = op_width op /\ Forall (fun v => has_kind v k) vs.
Proof.
  intros Ho Hx Hy. destruct (in_table op) eqn:Et.
  - pose proof (kinds_table op x y k1 k2 Et Hx Hy) as H. replace (operator op k1 k2) with (op_kind op k1 k2) in Ho by (destruct op; try discriminate Et; reflexivity).
    now rewrite Ho in H.
  - destruct op; try discriminate Et; try discriminate Ho.
    destruct k1, k2; try discriminate Ho. apply has_kind_S in Hx as [a ->], Hy as [b ->]. injection Ho as <-.
    eexists. split; [reflexivity|]. split; [reflexivity|]. repeat constructor.
Qed.
Lemma quotient_ok (x y : V) k : has_kind x k -> has_kind y k -> exists v, quotient x y = Ok v /\ has_kind v k.
Proof.
  intros Hx Hy. unfold quotient.
  pose proof (sub_meets x y k k Hx Hy) as H.
  assert (E : op_kind OAdd k k = Some k) by (destruct k; cbn; rewrite ?Nat.eqb_refl; reflexivity). rewrite E in H. destruct H as (d & -> & Hd). cbn [bind].
  pose proof (div_meets d (Scalar step_h) k KS Hd I) as H.
  assert (E2 : op_kind ODiv k KS = Some k) by (destruct k; reflexivity). rewrite E2 in H. exact H.
Qed.

Lemma fits_params c G ps (p : list V) ks fn : fits c G -> fun_inputs fn = ps -> Forall2 has_kind p ks ->
  fits (mkCtx (call_vars ps p (vars c)) (funs c)) (with_params ps ks G).
Proof.
  intros H Hp Hk n km. unfold with_params. pose proof (call_vars_binds fn p c) as [_ B]. rewrite Hp in B. rewrite B. clear B. rewrite <- Hp. clear Hp ps.
  revert Hk. generalize (fun_inputs fn). intros ps Hk. revert ps. induction Hk as [|v k p ks Hvk Hk IH]; intros ps.
  - replace (combine ps (@nil V)) with (@nil (str * V)) by (now destruct ps). replace (combine ps (@nil kind)) with (@nil (str * kind)) by (now destruct ps). cbn [find]. apply H.
  - destruct ps as [|x ps]; cbn [combine find]; [apply H|]. cbn [fst snd]. destruct (str_eqb x n); [|apply IH].
    intros [= <-]. eexists. split; [reflexivity|]. cbn. split; [reflexivity|]. repeat constructor. exact Hvk.
Qed.
Lemma fits_num c G x s : fits c G -> fits (set_num c x s) (with_params [x] [KS] G).
Proof.
  intros H n km. unfold with_params. cbn [combine find fst snd]. 
  assert (L : lookup_var (set_num c x s) n = if str_eqb x n then Some (mkVar x [Scalar s]) else lookup_var c n).
  { unfold lookup_var, set_num. cbn [add_var vars var_name]. rewrite find_app, (find_filter_neg var_name). cbn [find var_name].
    destruct (str_eqb x n); [reflexivity|]. now destruct (find _ (vars c)). }
  rewrite L. destruct (str_eqb x n); [|apply H]. intros [= <-]. eexists. split; [reflexivity|]. split; [reflexivity|]. repeat constructor.
Qed.

Lemma derivative_points l (e at_ : AST N) x ss c (rss : list (list V)) :
  outcome_in l at_ c (Ok (map Scalar ss)) ->
  Forall2 (fun s rs => evto (fun f => fst (calculate_derivative (fun b c => eval_rec f b c []) e x (Scalar s) c)) (Ok rs)) ss rss ->
  outcome_in l (ADer e x at_) c (Ok (List.concat rss)).
Proof.
  intros [_ [f1 H1]] H. split; [discriminate|]. apply evto_S.
  destruct (evto_mapM (fun f s => fst (calculate_derivative (fun b c => eval_rec f b c []) e x (Scalar s) c)) ss rss H) as [f2 H2].
  exists (Nat.max f1 f2). intros f Hf. cbn [eval_rec]. rewrite H1 by lia. cbn [bind]. unfold concatM. rewrite mapM_map, H2 by lia. reflexivity.
Qed.

Theorem kinds_sound n F : forall inside G e km, kind_of n F inside G e = Some km ->
  forall c, fits c G -> (forall f, lookup_fun c f = F f) ->
  exists vs, outcome_in inside e c (Ok vs) /\ of_kind vs km.
Proof.
  induction n as [|n IH]; intros inside G e km H c Hc HF; [discriminate|]. cbn [kind_of] in H.
  assert (IHs : forall es kms, Forall2 (fun e km => kind_of n F inside G e = Some km) es kms ->
    exists vss, Forall2 (fun e vs => outcome_in inside e c (Ok vs)) es vss /\ Forall2 of_kind vss kms).
  { intros es kms K. induction K as [|e' km' es kms He K (vss & K1 & K2)]; [exists []; split; constructor|].
    destruct (IH _ _ _ _ He c Hc HF) as (vs & H1 & H2). exists (vs :: vss). split; constructor; auto. }
  assert (IHk : forall es ms, Forall2 (fun e km => kind_of n F inside G e = Some km) es (map (fun m => (KS, m)) ms) ->
    exists sss, Forall2 (fun e ss => outcome_in inside e c (Ok (map Scalar ss))) es sss /\ Forall2 (fun l m => List.length l = m) sss ms).
  { intros es ms K. apply IHs in K as (vss & K1 & K2).
    revert es K1. remember (map (fun m => (KS, m)) ms) as kms eqn:E. revert ms E.
    induction K2 as [|vs km' vss kms Hv K2 IHK]; intros ms E es K1; destruct ms; try discriminate; inversion K1; subst.
    - exists []. split; constructor.
    - injection E as -> ->. destruct (IHK _ eq_refl _ H4) as (sss & S1 & S2).
      destruct Hv as [Hv1 Hv2]. cbn in Hv1, Hv2. destruct (scalars_of _ Hv2) as [ss ->]. rewrite map_length in Hv1.
      exists (ss :: sss). split; constructor; auto. }
  destruct e as [s|v|m|es|x|g args|op a b|b x lo up|b x at_|eqs sv].
  - injection H as <-. eexists. split; [apply scalar_outcome|]. split; [reflexivity|repeat constructor].
  - (* vector *)
    destruct (all_of KS _) as [ms|] eqn:E; [|discriminate]. apply all_of_inv in E. apply all_some_map in E.
    destruct (Nat.eqb_spec (List.length v) 0) as [L|L]; [discriminate|]. injection H as <-.
    destruct (IHk _ _ E) as (sss & S1 & S2). eexists. split; [apply vector_outcome; exact S1|].
    split; [rewrite map_length; now apply choices_count|]. apply Forall_forall. intros w Hw. apply in_map_iff in Hw as (t & <- & Ht).
    apply choices_width in Ht. cbn. rewrite Ht, <- (Forall2_length S1). split; [lia|reflexivity].
  - (* matrix *)
    destruct m as [|row m]; [discriminate|]. destruct (all_of KS _) as [ms|] eqn:E; [|discriminate]. apply all_of_inv in E. apply all_some_map in E.
    match type of H with (if ?b then _ else _) = _ => destruct b eqn:B end; [|discriminate]. injection H as <-. apply andb_true_iff in B as [B1 B2].
    rewrite forallb_forall in B1. apply negb_true_iff, Nat.eqb_neq in B2.
    destruct (IHk _ _ E) as (sss & S1 & S2). apply Forall2_concat in S1 as (ssss & -> & S1).
    set (rows := row :: m) in *. exists (map Matrix (choices (map choices ssss))). split; [now apply matrix_outcome|].
    split.
    + rewrite map_length. cbn [snd].
      assert (P : List.length (choices (map choices ssss)) = product (map (@List.length _) (List.concat ssss))).
      { clear. rewrite choices_length. induction ssss as [|r ssss IH]; [reflexivity|]. cbn [map fold_right List.concat]. rewrite map_app, product_app, <- IH, choices_length. reflexivity. }
      rewrite P. f_equal. clear -S2. induction S2; cbn; congruence.
    + apply Forall_forall. intros w Hw. apply in_map_iff in Hw as (t & <- & Ht). cbn.
      assert (L : List.length ssss = List.length rows) by (symmetry; apply (Forall2_length S1)).
      split; [lia|]. split; [lia|].
      split; [rewrite (choices_width _ _ Ht), map_length; exact L|].
      apply choices_in in Ht.
      apply Forall_forall. intros r Hr. apply In_nth_error in Hr as [i Hi].
      destruct (Forall2_nth _ _ _ _ _ Ht Hi) as (cs & Hcs & Hin). rewrite nth_error_map in Hcs.
      destruct (nth_error ssss i) as [srow|] eqn:Es; [|discriminate]. injection Hcs as <-.
      rewrite (choices_width _ _ Hin). destruct (Forall2_nth_r _ _ _ _ _ S1 Es) as (er & Her & Hf).
      rewrite <- (Forall2_length Hf). apply Nat.eqb_eq, B1. eapply nth_error_In; eauto.
  - (* list *)
    destruct (map (kind_of n F inside G) es) as [|[[k m]|] kms] eqn:Em; try discriminate.
    rewrite <- Em in H. clear Em. destruct (all_of k _) as [ms|] eqn:E; [|discriminate]. injection H as <-. apply all_of_inv in E. apply all_some_map in E.
    destruct (IHs _ _ E) as (vss & S1 & S2). eexists. split; [apply list_outcome; exact S1|]. clear -S2.
    remember (map (fun m => (k, m)) ms) as kms eqn:Ek. revert ms Ek. induction S2 as [|vs km' vss kms Hv S2 IH]; intros ms Ek; destruct ms; try discriminate.
    + split; [reflexivity|constructor].
    + injection Ek as -> ->. destruct (IH _ eq_refl) as [I1 I2], Hv as [V1 V2]. cbn [snd fst] in *. split; cbn [List.concat].
      * rewrite app_length, I1, V1. reflexivity.
      * apply Forall_app; auto.
  - destruct (Hc _ _ H) as (w & Hw & Hk). exists (var_values w). split; [|exact Hk]. pose proof (var_outcome inside c x) as O. now rewrite Hw in O.
  - (* call *)
    destruct (F g) as [fn|] eqn:Ef; [|discriminate]. destruct (all_some _) as [kms|] eqn:E; [|discriminate]. apply all_some_map in E.
    match type of H with (if ?b then _ else _) = _ => destruct b eqn:B end; [|discriminate]. apply andb_true_iff in B as [B1 B2]. apply Nat.eqb_eq in B2.
    destruct (kind_of n F g _ _) as [[k m]|] eqn:Eb; [|discriminate]. injection H as <-.
    destruct (IHs _ _ E) as (vss & S1 & S2).
    assert (Hin : inside <> g). { intros ->. now rewrite str_eqb_refl in B1. }
    destruct (Forall2_ex (fun p vs => outcome_in g (fun_ast fn) (mkCtx (call_vars (fun_inputs fn) p (vars c)) (funs c)) (Ok vs) /\ of_kind vs (k, m)) (choices vss)) as (rs & R).
    { apply Forall_forall. intros p Hp. apply (IH _ _ _ _ Eb).
      - apply (fits_params c G (fun_inputs fn) p (map fst kms) fn Hc eq_refl). apply choices_in in Hp. clear -Hp S2.
        revert p Hp. induction S2 as [|vs km vss kms Hv S2 IH]; intros p Hp; inversion Hp; subst; cbn [map]; constructor; auto.
        destruct Hv as [_ Hv]. rewrite Forall_forall in Hv. auto.
      - exact HF. }
    exists (List.concat rs). split.
    + apply (call_outcome inside c g args fn vss rs Hin); auto.
      * now rewrite HF.
      * clear -R. induction R as [|? ? ? ? [? ?]]; constructor; auto.
    + assert (L : List.length (choices vss) = product (map snd kms)).
      { apply choices_count. clear -S2. induction S2 as [|? ? ? ? [? ?]]; constructor; auto. }
      split; cbn [fst snd].
      * rewrite (concat_const rs m), <- (Forall2_length R), L; [reflexivity|]. clear -R. induction R as [|? ? ? ? [_ [? _]]]; constructor; auto.
      * apply Forall_concat. clear -R. induction R as [|? ? ? ? [_ [_ ?]]]; constructor; auto.
  - (* operator *)
    destruct (kind_of n F inside G a) as [[k1 m1]|] eqn:Ea; [|discriminate]. destruct (kind_of n F inside G b) as [[k2 m2]|] eqn:Eb; [|discriminate].
    destruct (operator op k1 k2) as [k|] eqn:Eo; [|discriminate]. injection H as <-.
    destruct (IH _ _ _ _ Ea c Hc HF) as (lv & L1 & L2 & L3), (IH _ _ _ _ Eb c Hc HF) as (rv & R1 & R2 & R3). cbn [fst snd] in *.
    rewrite Forall_forall in L3, R3.
    assert (P : forall x y, In x lv -> In y rv -> exists vs, op_meaning op x y = Ok vs /\ List.length vs = op_width op /\ Forall (fun v => has_kind v k) vs).
    { intros x y Hx Hy. apply (operator_ok op x y k1 k2 k Eo); auto. }
    assert (Rows : forall x, In x lv -> exists row, concatM (fun j => apply_op op x j) rv = Ok row /\ List.length row = List.length rv * op_width op /\ Forall (fun v => has_kind v k) row).
    { intros x Hx. clear -P Hx.
      assert (Q : forall y, In y rv -> exists vs, op_meaning op x y = Ok vs /\ List.length vs = op_width op /\ Forall (fun v => has_kind v k) vs) by auto. clear P Hx.
      destruct (Forall2_ex (fun y vs => op_meaning op x y = Ok vs /\ List.length vs = op_width op /\ Forall (fun v => has_kind v k) vs) rv) as (vss & W); [now apply Forall_forall|].
      exists (List.concat vss). split; [apply row_ok; exists vss; split; [|reflexivity]; clear -W; induction W as [|? ? ? ? [? ?]]; constructor; auto|]. split.
      - rewrite (concat_const vss (op_width op)), <- (Forall2_length W); [reflexivity|]. clear -W. induction W as [|? ? ? ? [_ [? _]]]; constructor; auto.
      - apply Forall_concat. clear -W. induction W as [|? ? ? ? [_ [_ ?]]]; constructor; auto. }
    destruct (Forall2_ex (fun x row => concatM (fun j => apply_op op x j) rv = Ok row /\ List.length row = List.length rv * op_width op /\ Forall (fun v => has_kind v k) row) lv) as (rows & W); [now apply Forall_forall|].
    assert (Eg : grid op lv rv = Ok (List.concat rows)).
    { apply concatM_ok_iff. exists rows. split; [|reflexivity]. apply mapM_ok_iff. clear -W. induction W as [|? ? ? ? [? ?]]; constructor; auto. }
    exists (List.concat rows). split; [rewrite <- Eg; apply op_outcome_grid; auto; rewrite Eg; discriminate|]. split; cbn [fst snd].
    + rewrite (concat_const rows (List.length rv * op_width op)), <- (Forall2_length W), L2, R2; [lia|]. clear -W. induction W as [|? ? ? ? [_ [? _]]]; constructor; auto.
    + apply Forall_concat. clear -W. induction W as [|? ? ? ? [_ [_ ?]]]; constructor; auto.
  - discriminate.
  - (* derivative *)
    destruct (kind_of n F inside G at_) as [[[| |] m1]|] eqn:Ea; try discriminate.
    destruct (kind_of n F [] _ b) as [[k m2]|] eqn:Eb; [|discriminate]. injection H as <-.
    destruct (IH _ _ _ _ Ea c Hc HF) as (pv & P1 & P2 & P3). cbn [fst snd] in *. destruct (scalars_of _ P3) as [ss ->]. rewrite map_length in P2.
    destruct (Forall2_ex (fun s rs => evto (fun f => fst (calculate_derivative (fun b c => eval_rec f b c []) b x (Scalar s) c)) (Ok rs) /\ of_kind rs (k, m2)) ss) as (rss & R).
    { apply Forall_forall. intros s _.
      destruct (IH _ _ _ _ Eb (set_num c x s) (fits_num c G x s Hc) HF) as (fx & X1 & X2 & X3).
      destruct (IH _ _ _ _ Eb (set_num c x (nadd s eps)) (fits_num c G x _ Hc) HF) as (fxh & Y1 & Y2 & Y3). cbn [fst snd] in *.
      assert (Q : exists rs, mapM (fun p => mathe (quotient (snd p) (fst p))) (combine fx fxh) = Ok rs /\ List.length rs = List.length fx /\ Forall (fun v => has_kind v k) rs).
      { assert (L : List.length fx = List.length fxh) by congruence. clear -X3 Y3 L. revert fxh L Y3. induction X3 as [|v fx Hv _ IH]; intros [|w fxh] L Y3; try discriminate; [exists []; repeat split; constructor|].
        inversion Y3; subst. injection L as L. destruct (IH fxh L H2) as (rs & R1 & R2 & R3). destruct (quotient_ok w v k H1 Hv) as (q & Q1 & Q2).
        exists (q :: rs). cbn [combine mapM fst snd]. rewrite Q1. cbn [mathe map_err bind]. rewrite R1. cbn. split; [reflexivity|]. split; [congruence|]. constructor; auto. }
      destruct Q as (rs & Q1 & Q2 & Q3). exists rs. split; [|split; [cbn; congruence|exact Q3]]. rewrite <- Q1.
      apply derivative_evto; auto; [congruence|]. intros p Hp.
      destruct p as [v w]. apply in_combine_l in Hp as Hv. apply in_combine_r in Hp as Hw. cbn [fst snd]. rewrite Forall_forall in X3, Y3.
      destruct (quotient_ok w v k (Y3 _ Hw) (X3 _ Hv)) as (q & -> & _). discriminate. }
    exists (List.concat rss). split.
    + apply (derivative_points inside b at_ x ss c rss P1). clear -R. induction R as [|? ? ? ? [? ?]]; constructor; auto.
    + split; cbn [fst snd].
      * rewrite (concat_const rss m2), <- (Forall2_length R), P2; [reflexivity|]. clear -R. induction R as [|? ? ? ? [_ [? _]]]; constructor; auto.
      * apply Forall_concat. clear -R. induction R as [|? ? ? ? [_ [_ ?]]]; constructor; auto.
  - discriminate.
Qed.

Lemma value_kind_ok (v : V) k : value_kind v = Some k -> has_kind v k.
Proof.
  destruct v as [m|l|s]; cbn.
  - destruct m as [|[|x row] m]; try discriminate. destruct (forallb _ m) eqn:B; [|discriminate]. intros [= <-].
    rewrite forallb_forall in B. split; [lia|]. split; [cbn; lia|]. split; [reflexivity|]. constructor; [reflexivity|].
    apply Forall_forall. intros r Hr. now apply Nat.eqb_eq, B.
  - destruct l; [discriminate|]. intros [= <-]. cbn. split; [lia|reflexivity].
  - intros [= <-]. exact I.
Qed.
Lemma context_fits (c : Ctx N) : fits c (context_kinds c).
Proof.
  intros n km. unfold context_kinds. change (find _ (vars c)) with (lookup_var c n).
  destruct (lookup_var c n) as [w|]; [|discriminate]. intros H. exists w. split; [reflexivity|].
  destruct (map value_kind (var_values w)) as [|[k|] ks] eqn:Ek; try discriminate. clear Ek ks.
  destruct (all_of k _) as [ms|] eqn:E; [|discriminate]. injection H as <-. apply all_of_inv in E. apply all_some_map in E.
  pose proof (Forall2_length E) as L. rewrite map_length in L. split; [exact L|].
  apply Forall_forall. intros v Hv. apply In_nth_error in Hv as [i Hi]. destruct (Forall2_nth _ _ _ _ _ E Hi) as ([k' m'] & Hn & Hk).
  rewrite nth_error_map in Hn. destruct (nth_error ms i); [|discriminate]. injection Hn as <- _. cbn [fst].
  apply value_kind_ok. destruct (value_kind v); [|discriminate]. now injection Hk as ->.
Qed.

(** ** C71 *)
(** An expression that passes the check evaluates, to the predicted number of
    values of the predicted kind. *)
Theorem c71_checked_expressions_evaluate n (c : Ctx N) e k m :
  kind_of n (context_functions c) [] (context_kinds c) e = Some (k, m) ->
  exists vs, outcome e c (Ok vs) /\ List.length vs = m /\ Forall (fun v => has_kind v k) vs.
Proof.
  intros H. destruct (kinds_sound n _ _ _ _ _ H c (context_fits c) (fun f => eq_refl)) as (vs & H1 & H2). exists vs. split; [exact H1|exact H2].
Qed.
(** The check uses the kinds of the variables only: it need not be repeated
    when the variables get other values of the same kinds. *)
Theorem c71_other_values n (c c' : Ctx N) e k m :
  kind_of n (context_functions c) [] (context_kinds c) e = Some (k, m) ->
  (forall f, lookup_fun c' f = lookup_fun c f) ->
  (forall x km, context_kinds c x = Some km ->
     exists w, lookup_var c' x = Some w /\ List.length (var_values w) = snd km /\ Forall (fun v => has_kind v (fst km)) (var_values w)) ->
  exists vs, outcome e c' (Ok vs) /\ List.length vs = m /\ Forall (fun v => has_kind v k) vs.
Proof.
  intros H HF HV. destruct (kinds_sound n _ _ _ _ _ H c' HV) as (vs & H1 & H2); [exact HF|]. exists vs. split; [exact H1|exact H2].
Qed.
(** Operands of kinds that are not in the table are an error. *)
Theorem c71_mismatch n (c : Ctx N) op a b k1 m1 k2 m2 : in_table op = true -> op_kind op k1 k2 = None ->
  kind_of n (context_functions c) [] (context_kinds c) a = Some (k1, m1) -> 0 < m1 ->
  kind_of n (context_functions c) [] (context_kinds c) b = Some (k2, m2) -> 0 < m2 ->
  exists s, outcome (AOp op a b) c (Err (MathError s)).
Proof.
  intros Ht Ho Ha M1 Hb M2.
  destruct (c71_checked_expressions_evaluate _ _ _ _ _ Ha) as (lv & L1 & L2 & L3), (c71_checked_expressions_evaluate _ _ _ _ _ Hb) as (rv & R1 & R2 & R3).
  destruct lv as [|x lv]; [cbn in L2; lia|]. destruct rv as [|y rv]; [cbn in R2; lia|]. inversion L3; inversion R3; subst.
  pose proof (kinds_table op x y k1 k2 Ht) as K. rewrite Ho in K. destruct K as [s Hs]; auto.
  exists s. assert (Eg : grid op (x :: lv) (y :: rv) = Err (MathError s)).
  { apply grid_err. exists s. split; [reflexivity|]. exists 0, 0, x, y. repeat split; auto. intros i' j' x' y' [Hl|[_ Hl]]; cbn in Hl; lia. }
  rewrite <- Eg. apply (op_outcome_grid []); [exact L1|exact R1|]. rewrite Eg. discriminate.
Qed.
(** Checking deeper does not change the answer. *)
Theorem c71_depth n n' F inside G (e : AST N) km : n <= n' -> kind_of n F inside G e = Some km -> kind_of n' F inside G e = Some km.
Proof.
  intros Hn. enough (S1 : forall n inside G (e : AST N) km, kind_of n F inside G e = Some km -> kind_of (S n) F inside G e = Some km).
  { intros H. induction Hn; auto. }
  clear. induction n as [|n IH]; [discriminate|]. intros inside G e km H.
  assert (A : forall es kms, all_some (map (kind_of n F inside G) es) = Some kms -> all_some (map (kind_of (S n) F inside G) es) = Some kms).
  { intros es. induction es as [|e' es IHe]; intros kms; cbn [map all_some]; [auto|].
    destruct (kind_of n F inside G e') eqn:E; [|discriminate]. rewrite (IH _ _ _ _ E).
    destruct (all_some (map (kind_of n F inside G) es)); [|discriminate]. intros [= <-]. now rewrite (IHe _ eq_refl). }
  assert (A' : forall k es ms, all_of k (all_some (map (kind_of n F inside G) es)) = Some ms -> all_of k (all_some (map (kind_of (S n) F inside G) es)) = Some ms).
  { intros k es ms. destruct (all_some (map (kind_of n F inside G) es)) eqn:E; [|discriminate]. now rewrite (A _ _ E). }
  remember (S n) as n1 eqn:En1. rewrite En1 in H. cbn [kind_of] in H |- *.
  destruct e as [s|v|m|es|x|g args|op a b|b x lo up|b x at_|eqs sv]; try discriminate; auto.
  - destruct (all_of KS (all_some (map (kind_of n F inside G) v))) eqn:E; [|discriminate]. now rewrite (A' _ _ _ E).
  - destruct m as [|row m]; [discriminate|].
    destruct (all_of KS (all_some (map (kind_of n F inside G) (List.concat (row :: m))))) eqn:E; [|discriminate]. now rewrite (A' _ _ _ E).
  - destruct es as [|e1 es]; [discriminate|]. cbn [map] in H |- *. destruct (kind_of n F inside G e1) as [[k1 m1]|] eqn:E1; [|discriminate]. rewrite (IH _ _ _ _ E1).
    match type of H with match ?x with _ => _ end = _ => destruct x as [ms|] eqn:E; [|discriminate] end.
    rewrite <- E1 in E. change (kind_of n F inside G e1 :: map (kind_of n F inside G) es) with (map (kind_of n F inside G) (e1 :: es)) in E.
    apply A' in E. cbn [map] in E. rewrite (IH _ _ _ _ E1) in E. now rewrite E.
  - destruct (F g); [|discriminate]. destruct (all_some (map (kind_of n F inside G) args)) eqn:E; [|discriminate]. rewrite (A _ _ E).
    destruct (_ && _)%bool; [|discriminate]. destruct (kind_of n F g _ _) eqn:Eb; [|discriminate]. now rewrite (IH _ _ _ _ Eb).
  - destruct (kind_of n F inside G a) eqn:Ea; [|discriminate]. rewrite (IH _ _ _ _ Ea). destruct (kind_of n F inside G b) eqn:Eb; [|now destruct k]. now rewrite (IH _ _ _ _ Eb).
  - destruct (kind_of n F inside G at_) eqn:Ea; [|discriminate]. rewrite (IH _ _ _ _ Ea). destruct k as [[| |] ?]; try discriminate.
    destruct (kind_of n F [] _ b) eqn:Eb; [|discriminate]. now rewrite (IH _ _ _ _ Eb).
Qed.
End Gen.

Module Examples.
Local Existing Instance NT.
Local Existing Instance ET.
Definition lx := lit "x". Definition lv := lit "v". Definition lf := lit "f".
(** [f(x) = x^2 + 1], [v = \[1, 2, 3\]]. *)
Definition fn : MFun NT := mkFun lf (AOp OAdd (AOp OPow (AVar lx) (AScalar (num 2))) (AScalar (num 1))) [lx].
Definition c : Ctx NT := mkCtx [mkVar lv [ve [1; 2; 3]%Z]] [fn].
(** [\[f(2), 5 & 1, D(x^2, x, 3)\] * v] gives two numbers. *)
Definition e1 : AST NT := AOp OMult (AVector [AFun lf [AScalar (num 2)]; AOp OAddSub (AScalar (num 5)) (AScalar (num 1));
  ADer (AOp OPow (AVar lx) (AScalar (num 2))) lx (AScalar (num 3))]) (AVar lv).
Example c71_case : exists vs, outcome e1 c (Ok vs) /\ List.length vs = 2 /\ Forall (fun v => has_kind v KS) vs.
Proof. apply (c71_checked_expressions_evaluate 6 c e1 KS 2). reflexivity. Qed.
(** [v + 1] is an error. *)
Example c71_error : exists s, outcome (AOp OAdd (AVar lv) (AScalar (num 1))) c (Err (MathError s)).
Proof. apply (c71_mismatch 1 c OAdd _ _ (KV 3) 1 KS 1); try reflexivity; repeat constructor. Qed.
(** Nothing is promised for a function that calls itself. *)
Definition loop : MFun NT := mkFun lf (AFun lf [AVar lx]) [lx].
Example c71_recursive : kind_of 100 (context_functions (mkCtx [] [loop])) [] (context_kinds (mkCtx [] [loop])) (AFun lf [AScalar (num 1)]) = None.
Proof. reflexivity. Qed.
End Examples.
