(** * PropMulti: C70 - integrals and derivatives of several values, of vectors and of matrices. *)
From Coq Require Import List NArith ZArith Bool String Arith Lia.
From Verif Require Import Base BaseFacts F64 Num Types Maths Helpers Parser Eval EvalFuel SpecEval EvalProofs ContextProofs GrammarSpec MathsForms
  PropEval Parens CalcSpec CalcProofs PropCalc PropReplace Toy.
Import ListNotations.

(** ** Specification *)
Section Spec.
Context {N : Num}.
Notation V := (Value N).
(** [s] is the sum of the non-empty list [l], added up from the left by the
    public addition. *)
Inductive total : list V -> V -> Prop :=
| T_one v : total [v] v
| T_more l v s w : total l s -> add s v = Ok w -> total (l ++ [v]) w.
(** The [i]-th values of those lists that have one. *)
Definition column (i : nat) (vss : list (list V)) : list V :=
  List.concat (map (fun vs => match nth_error vs i with Some v => [v] | None => [] end) vss).
End Spec.

Section Generic.
Context {N : Num} {En : Env}.
Notation V := (Value N).

(** ** Proof *)
Lemma from_value_at v (c : Ctx N) l f : eval_rec (S (S f)) (ast_from_value v) c l = Ok [v].
Proof.
  assert (R : forall e (r : list T), mapM (fun i => do vs <- eval_rec (S f) i c l; scalars_or e vs) (map AScalar r) = Ok (map (fun x => [x]) r)).
  { intros e r. rewrite mapM_map. apply mapM_total. intros x. reflexivity. }
  destruct v as [m|r|s]; cbn [ast_from_value].
  - change (eval_rec (S (S f)) (AMatrix (map (map AScalar) m)) c l) with
      (do rows <- mapM (mapM (fun j => do vs <- eval_rec (S f) j c l; scalars_or NonScalarInMatrix vs)) (map (map AScalar) m);
       Ok (map (@Matrix N) (cart_prod (map cart_prod rows)))).
    rewrite mapM_map, (mapM_total _ (fun r => map (fun x => [x]) r)) by (intros; apply R).
    cbn [bind]. rewrite map_map. rewrite (map_ext _ (fun r => [r])) by (intros; rewrite cart_prod_choices; apply choices_singletons).
    now rewrite cart_prod_choices, choices_singletons.
  - change (eval_rec (S (S f)) (AVector (map AScalar r)) c l) with
      (do fields <- mapM (fun i => do vs <- eval_rec (S f) i c l; scalars_or NonScalarInVector vs) (map AScalar r);
       Ok (map (@Vector N) (cart_prod fields))).
    rewrite R. cbn [bind]. now rewrite cart_prod_choices, choices_singletons.
  - reflexivity.
Qed.

Lemma shifted (a b : AST N) c F : (forall f, F <= f -> eval (S f) a c = eval (S (S f)) b c) -> same_behaviour a c b c.
Proof.
  intros H. apply behaviour_intro. intros r. split; intros [Hr [f0 G]]; (split; [exact Hr|]).
  - exists (S (S (max f0 F))). intros [|[|f]] Hf; [lia|lia|]. rewrite <- H by lia. apply G. lia.
  - exists (S (max f0 F)). intros [|f] Hf; [lia|]. rewrite H by lia. apply G. lia.
Qed.
Lemma concatM_ext_in {E A B} (f g : A -> res E (list B)) l : (forall x, In x l -> f x = g x) -> concatM f l = concatM g l.
Proof. intros H. unfold concatM. rewrite (mapM_ext f g) by exact H. reflexivity. Qed.
Lemma concatM_app {E A B} (f : A -> res E (list B)) l l' : concatM f (l ++ l') = do x <- concatM f l; do y <- concatM f l'; Ok (x ++ y).
Proof.
  unfold concatM. rewrite mapM_app. destruct (mapM f l); cbn; try reflexivity. destruct (mapM f l'); cbn; try reflexivity. now rewrite concat_app.
Qed.
Lemma concatM_concat {E A B C} (f : A -> B -> res E (list C)) l us :
  concatM (fun i => concatM (f i) us) l = concatM (fun p => f (fst p) (snd p)) (List.concat (map (fun i => map (fun j => (i, j)) us) l)).
Proof.
  induction l as [|i l IH]; [reflexivity|]. cbn [map List.concat]. rewrite concatM_app, <- IH.
  change (i :: l) with ([i] ++ l). rewrite concatM_app, concatM_one.
  unfold concatM at 4. rewrite mapM_map. cbn [fst snd]. fold (concatM (f i) us).
  reflexivity.
Qed.

(** ** Several points, several bounds *)
Theorem c70_points (e at_ : AST N) x c vs : outcome at_ c (Ok vs) ->
  same_behaviour (ADer e x at_) c (AList (map (fun v => ADer e x (ast_from_value v)) vs)) c.
Proof.
  intros [_ [f0 H]]. apply (shifted _ _ _ (max f0 2)). intros f Hf. unfold eval in *.
  change (eval_rec (S f) (ADer e x at_) c []) with
    (do avs <- eval_rec f at_ c []; concatM (fun i => fst (calculate_derivative (fun b c => eval_rec f b c []) e x i c)) avs).
  rewrite H by lia. cbn [bind].
  change (eval_rec (S (S f)) (AList (map (fun v => ADer e x (ast_from_value v)) vs)) c []) with
    (concatM (fun e => eval_rec (S f) e c []) (map (fun v => ADer e x (ast_from_value v)) vs)).
  rewrite concatM_map. apply concatM_ext_in. intros v _.
  change (eval_rec (S f) (ADer e x (ast_from_value v)) c []) with
    (do avs <- eval_rec f (ast_from_value v) c []; concatM (fun i => fst (calculate_derivative (fun b c => eval_rec f b c []) e x i c)) avs).
  destruct f as [|[|f]]; [lia|lia|]. rewrite from_value_at. cbn [bind]. now rewrite concatM_one.
Qed.

Theorem c70_bounds (e la lb : AST N) x c ls us : outcome la c (Ok ls) -> outcome lb c (Ok us) ->
  same_behaviour (AInt e x la lb) c
    (AList (List.concat (map (fun l => map (fun u => AInt e x (ast_from_value l) (ast_from_value u)) us) ls))) c.
Proof.
  intros [_ [f0 H]] [_ [f1 H1]]. apply (shifted _ _ _ (max (max f0 f1) 2)). intros f Hf. unfold eval in *.
  assert (E : forall a b, eval_rec (S f) (AInt e x a b) c [] =
    (do lvs <- eval_rec f a c []; do uvs <- eval_rec f b c [];
     concatM (fun i => concatM (fun j => calculate_integral (fun b c => eval_rec f b c []) f e x i j c) uvs) lvs)) by reflexivity.
  rewrite E, H, H1 by lia. cbn [bind]. rewrite concatM_concat.
  match goal with |- _ = eval_rec _ (AList ?l) _ _ => change (eval_rec (S (S f)) (AList l) c []) with (concatM (fun e => eval_rec (S f) e c []) l) end.
  assert (G : List.concat (map (fun l => map (fun u => AInt e x (ast_from_value l) (ast_from_value u)) us) ls) =
    map (fun p => AInt e x (ast_from_value (fst p)) (ast_from_value (snd p))) (List.concat (map (fun i => map (fun j => (i, j)) us) ls))).
  { rewrite concat_map, map_map. f_equal. apply map_ext. intros l. now rewrite map_map. }
  rewrite G, concatM_map. apply concatM_ext_in. intros [i j] _. cbn [fst snd]. rewrite E.
  destruct f as [|[|f]]; [lia|lia|]. rewrite !from_value_at. cbn [bind]. now rewrite !concatM_one.
Qed.

(** ** Several values of the integrand *)
Lemma total_ne l (s : V) : total l s -> l <> [].
Proof. intros H E. subst. inversion H as [|l' v s' w Ht Hq E]. now destruct l'. Qed.
Lemma total_last l v (s : V) : l <> [] -> total (l ++ [v]) s -> exists s', total l s' /\ add s' v = Ok s.
Proof.
  intros Hl H. inversion H as [u E|l' v' s' w H1 H2 E].
  - destruct l as [|y l]; [contradiction|]. now destruct l.
  - apply app_inj_tail in E as [-> ->]. eauto.
Qed.
Lemma total_det l (s t : V) : total l s -> total l t -> s = t.
Proof.
  intros H. revert t. induction H as [v|l v s w H IH E]; intros t Ht.
  - inversion Ht as [u E|l' v' s' w H1 H2 E]; [reflexivity|]. apply total_ne in H1. destruct l' as [|y [|z l']]; cbn in E; try discriminate. contradiction.
  - apply total_last in Ht as (s' & Hs & E'); [|now apply total_ne in H]. apply IH in Hs. congruence.
Qed.
Lemma total_prefix l l' (s : V) : l <> [] -> total (l ++ l') s -> exists t, total l t.
Proof.
  intros Hl. revert s. induction l' as [|v l' IH] using rev_ind; intros s H.
  - rewrite app_nil_r in H. eauto.
  - rewrite app_assoc in H. apply total_last in H as (s' & H & _); [eauto|]. destruct l; [contradiction|discriminate].
Qed.

Definition opt (o : option V) : list V := match o with Some v => [v] | None => [] end.
Definition inv (cols : nat -> list V) (sums : list V) : Prop :=
  forall i, match nth_error sums i with Some s => total (cols i) s | None => cols i = [] end.
Lemma inv_tail cols s sums : inv cols (s :: sums) -> inv (fun i => cols (S i)) sums.
Proof. intros H i. exact (H (S i)). Qed.
Lemma inv_nil_tail cols : inv cols [] -> inv (fun i => cols (S i)) [].
Proof. intros H i. specialize (H (S i)). now destruct i. Qed.
Lemma inv_same cols cols' sums : (forall i, cols i = cols' i) -> inv cols sums -> inv cols' sums.
Proof. intros E H i. rewrite <- E. apply H. Qed.
Lemma samples_ok es : forall cols sums, inv cols sums ->
  (forall i, cols i ++ opt (nth_error es i) <> [] -> exists s, total (cols i ++ opt (nth_error es i)) s) ->
  exists sums', add_samples sums es = Ok sums' /\ inv (fun i => cols i ++ opt (nth_error es i)) sums'.
Proof.
  induction es as [|e es IH]; intros cols sums Hi Ht.
  - exists sums. split; [now destruct sums|]. eapply inv_same; [|exact Hi]. intros i. cbn. destruct i; cbn; now rewrite app_nil_r.
  - pose proof (Ht 0) as H0. cbn [nth_error opt] in H0. destruct sums as [|s sums].
    + destruct (IH (fun i => cols (S i)) [] (inv_nil_tail _ Hi) (fun i => Ht (S i))) as (t & E & G).
      exists (e :: t). cbn [add_samples]. rewrite E. split; [reflexivity|]. intros [|i]; [|exact (G i)].
      cbn [nth_error opt]. pose proof (Hi 0) as C0. cbn in C0. rewrite C0. apply T_one.
    + destruct (IH (fun i => cols (S i)) sums (inv_tail _ _ _ Hi) (fun i => Ht (S i))) as (t & E & G).
      pose proof (Hi 0) as C0. cbn in C0. destruct H0 as [w H0]; [now destruct (cols 0)|].
      apply total_last in H0 as (s' & H1 & H2); [|now apply total_ne in C0]. assert (s' = s) as -> by (eapply total_det; eauto).
      exists (w :: t). cbn [add_samples]. rewrite H2. cbn [mathe map_err bind]. rewrite E. split; [reflexivity|]. intros [|i]; [|exact (G i)].
      cbn [nth_error opt]. eapply T_more; eauto.
Qed.
Lemma samples_inv es : forall cols sums sums', inv cols sums -> add_samples sums es = Ok sums' ->
  inv (fun i => cols i ++ opt (nth_error es i)) sums'.
Proof.
  induction es as [|e es IH]; intros cols sums sums' Hi E.
  - assert (sums' = sums) as -> by (destruct sums; cbn in E; congruence). eapply inv_same; [|exact Hi]. intros i. cbn. destruct i; cbn; now rewrite app_nil_r.
  - destruct sums as [|s sums]; cbn [add_samples] in E.
    + destruct (add_samples [] es) as [t| | |] eqn:Et; cbn [bind] in E; try discriminate. injection E as <-.
      specialize (IH _ _ _ (inv_nil_tail _ Hi) Et). intros [|i]; [|exact (IH i)].
      cbn [nth_error opt]. pose proof (Hi 0) as C0. cbn in C0. rewrite C0. apply T_one.
    + destruct (add s e) as [w| | |] eqn:Ea; cbn [mathe map_err bind] in E; try discriminate.
      destruct (add_samples sums es) as [t| | |] eqn:Et; cbn [bind] in E; try discriminate. injection E as <-.
      specialize (IH _ _ _ (inv_tail _ _ _ Hi) Et). intros [|i]; [|exact (IH i)].
      cbn [nth_error opt]. pose proof (Hi 0) as C0. cbn in C0. eapply T_more; eauto.
Qed.
Lemma column_cons i vs (vss : list (list V)) : column i (vs :: vss) = opt (nth_error vs i) ++ column i vss.
Proof. reflexivity. Qed.

(** The whole loop. *)
Lemma loop_columns (e : AST N) x c dx ub p ps vss : distinct_names c -> visits dx ub p ps ->
  Forall2 (fun q vs => outcome e (set_num c x (sample dx q)) (Ok vs)) ps vss ->
  exists F, forall f n, F <= f -> List.length ps < n -> forall cols sums, inv cols sums ->
    let r := integral_loop (fun b c => eval_rec f b c []) n e x c (remove_first x (vars c)) dx ub p sums in
    (forall out, r = Ok out -> inv (fun i => cols i ++ column i vss) out) /\
    ((forall i, cols i ++ column i vss <> [] -> exists s, total (cols i ++ column i vss) s) -> exists out, r = Ok out).
Proof.
  intros Hc Hv. revert vss. induction Hv as [p Hp|p ps Hp Hv IH]; intros vss H.
  - inversion H; subst. exists 0. intros f [|n] _ Hn cols sums Hi; [cbn in Hn; lia|]. cbn [integral_loop]. rewrite Hp. cbn zeta. split.
    + intros out [= <-]. eapply inv_same; [|exact Hi]. intros i. cbn. now rewrite app_nil_r.
    + eauto.
  - inversion H as [|? vs ? vss' Hs Hss]; subst. destruct (IH vss' Hss) as [F1 H1]. destruct Hs as [_ [F2 H2]].
    exists (Nat.max F1 F2). intros f [|n] Hf Hn cols sums Hi; [cbn in Hn; lia|]. cbn in Hn. cbn zeta. cbn [integral_loop]. rewrite Hp. fold (sample dx p).
    rewrite integral_ctx by (apply Hc). unfold eval in H2. rewrite H2 by lia. cbn [bind].
    assert (As : forall i, cols i ++ column i (vs :: vss') = (cols i ++ opt (nth_error vs i)) ++ column i vss').
    { intros i. now rewrite column_cons, app_assoc. }
    split.
    + intros out E. destruct (add_samples sums vs) as [sums'| | |] eqn:Ea; cbn [bind] in E; try discriminate.
      pose proof (samples_inv _ _ _ _ Hi Ea) as Hi'. destruct (H1 f n ltac:(lia) ltac:(lia) _ _ Hi') as [G _].
      eapply inv_same; [|exact (G out E)]. intros i. now rewrite As.
    + intros Ht. destruct (samples_ok vs cols sums Hi) as (sums' & Ea & Hi').
      * intros i Hne. destruct (Ht i) as [s Hs]; [rewrite As; intros E; apply app_eq_nil in E as [E _]; contradiction|].
        rewrite As in Hs. now apply total_prefix in Hs.
      * rewrite Ea. cbn [bind]. apply (proj2 (H1 f n ltac:(lia) ltac:(lia) _ _ Hi')). intros i Hne. rewrite <- As in *. auto.
Qed.

Lemma nth_ext_list {X} (l l' : list X) : (forall i, nth_error l i = nth_error l' i) -> l = l'.
Proof.
  revert l'. induction l as [|x l IH]; intros [|y l'] H; [reflexivity|specialize (H 0); discriminate|specialize (H 0); discriminate|].
  f_equal; [specialize (H 0); cbn in H; congruence|]. apply IH. intros i. apply (H (S i)).
Qed.

(** What an integral is, whatever the integrand returns at the sample points:
    the sums of the first, second, ... values, each times the width. *)
Theorem c70_sums (e la lb : AST N) x a b c ps vss rs : distinct_names c ->
  outcome la c (Ok [Scalar a]) -> outcome lb c (Ok [Scalar b]) ->
  neqb a b = false -> nltb b a = false -> visits (width a b) b a ps ->
  Forall2 (fun q vs => outcome e (set_num c x (sample (width a b) q)) (Ok vs)) ps vss ->
  (outcome (AInt e x la lb) c (Ok rs) <->
   forall i, match nth_error rs i with
             | Some r => exists s, total (column i vss) s /\ mult s (Scalar (width a b)) = Ok r
             | None => column i vss = []
             end).
Proof.
  intros Hd [_ [f1 H1]] [_ [f2 H2]] Hab Hba Hv Hs.
  destruct (loop_columns e x c (width a b) b a ps vss Hd Hv Hs) as [f3 H3].
  assert (E : forall f, max (max f1 f2) (max f3 (S (List.length ps))) <= f -> eval (S f) (AInt e x la lb) c =
    (do sums <- integral_loop (fun b c => eval_rec f b c []) f e x c (remove_first x (vars c)) (width a b) b a [];
     mapM (fun s => mathe (mult s (Scalar (width a b)))) sums)).
  { intros f Hf. unfold eval. cbn [eval_rec]. unfold eval in H1, H2. rewrite H1, H2 by lia. cbn [bind]. rewrite !concatM_one.
    unfold calculate_integral. rewrite Hab, Hba. reflexivity. }
  assert (Hi0 : inv (fun _ => []) []) by (intros [|i]; reflexivity).
  split.
  - intros [_ [f0 H]]. set (f := max f0 (max (max f1 f2) (max f3 (S (List.length ps))))). specialize (H (S f) ltac:(lia)). rewrite E in H by lia.
    destruct (H3 f f ltac:(lia) ltac:(lia) _ _ Hi0) as [G _].
    destruct (integral_loop _ f e x c _ _ b a []) as [sums| | |]; cbn [bind] in H; try discriminate.
    specialize (G sums eq_refl). apply mapM_ok_iff in H. intros i. specialize (G i). cbn [app] in G.
    destruct (nth_error sums i) as [s|] eqn:Es.
    + assert (exists r, nth_error rs i = Some r /\ mathe (mult s (Scalar (width a b))) = Ok r) as (r & -> & Er).
      { clear -H Es. revert i Es. induction H as [|y z ys zs Hy H IH]; intros [|i] Es; try discriminate; [|now apply IH].
        injection Es as ->. exists z. split; [reflexivity|exact Hy]. }
      exists s. split; [exact G|]. destruct (mult s _); cbn in Er; congruence.
    + replace (nth_error rs i) with (@None V); [exact G|]. symmetry. apply nth_error_None. apply nth_error_None in Es.
      now rewrite <- (Forall2_length H).
  - intros H. split; [discriminate|]. exists (S (max (max f1 f2) (max f3 (S (List.length ps))))). intros [|f] Hf; [lia|]. rewrite E by lia.
    destruct (H3 f f ltac:(lia) ltac:(lia) _ _ Hi0) as [G1 G2]. destruct G2 as [out Eo].
    { intros i Hne. cbn [app] in *. specialize (H i). destruct (nth_error rs i); [|contradiction]. destruct H as (s & Ht & _). eauto. }
    rewrite Eo. cbn [bind]. specialize (G1 out Eo). cbn [app] in G1. apply mapM_ok_iff.
    clear -G1 H. assert (G : forall i, match nth_error rs i with Some r => exists s, nth_error out i = Some s /\ mult s (Scalar (width a b)) = Ok r | None => nth_error out i = None end).
    { intros i. specialize (G1 i). specialize (H i). destruct (nth_error rs i) as [r|].
      - destruct H as (s & Ht & Em). destruct (nth_error out i) as [s'|]; [|rewrite G1 in Ht; now apply total_ne in Ht].
        exists s'. split; [reflexivity|]. now rewrite (total_det _ _ _ G1 Ht).
      - destruct (nth_error out i); [|reflexivity]. rewrite H in G1. now apply total_ne in G1. }
    clear -G. revert out G. induction rs as [|r rs IH]; intros out G.
    + pose proof (G 0) as G0. cbn in G0. destruct out; [constructor|discriminate].
    + pose proof (G 0) as G0. cbn in G0. destruct G0 as (s & Es & Em). destruct out as [|s' out]; [discriminate|]. injection Es as ->.
      constructor; [now rewrite Em|]. apply IH. intros i. exact (G (S i)).
Qed.

(** ** Vectors and matrices *)
Lemma tab_S {A} n (f : nat -> A) : tab (S n) f = tab n f ++ [f n].
Proof. unfold tab. now rewrite seq_S, map_app. Qed.
Lemma Forall2_nth {A B} (P : A -> B -> Prop) l l' d d' : Forall2 P l l' -> forall i, i < List.length l -> P (nth i l d) (nth i l' d').
Proof. induction 1; intros [|i] Hi; cbn in *; try lia; auto. apply IHForall2. lia. Qed.
Lemma Forall2_tab {A B} (P : A -> B -> Prop) l f d : (forall i, i < List.length l -> P (nth i l d) (f i)) -> Forall2 P l (tab (List.length l) f).
Proof.
  revert f. induction l as [|a l IH]; intros f H; [constructor|]. unfold tab. cbn [List.length seq map]. constructor; [exact (H 0 ltac:(cbn; lia))|].
  rewrite <- seq_shift, map_map. apply (IH (fun i => f (S i))). intros i Hi. apply (H (S i)). cbn. lia.
Qed.
Lemma choose {A B} (P : A -> B -> Prop) l : (forall a, In a l -> exists b, P a b) -> exists l', Forall2 P l l'.
Proof.
  induction l as [|a l IH]; intros H; [exists []; constructor|]. destruct (H a (or_introl eq_refl)) as [b Hb].
  destruct IH as [l' Hl']; [intros; apply H; now right|]. exists (b :: l'). now constructor.
Qed.
(** The running sum of [g 0], ..., [g m]. *)
Definition upto (g : nat -> T) (m : nat) : T := fold_left nadd (map g (seq 1 m)) (g 0).
Lemma upto_S g m : upto g (S m) = nadd (upto g m) (g (S m)).
Proof. unfold upto. rewrite seq_S, map_app, fold_left_app. reflexivity. Qed.
Lemma upto_list s0 (ss : list T) : fold_left nadd ss s0 = upto (fun k => nth k (s0 :: ss) n0) (List.length ss).
Proof.
  unfold upto. cbn [nth]. f_equal. rewrite <- seq_shift, map_map. symmetry. apply (tab_id ss n0).
Qed.
Lemma total_vector n (g : nat -> nat -> T) m :
  total (tab (S m) (fun k => Vector (tab n (fun i => g i k)))) (Vector (tab n (fun i => upto (g i) m))).
Proof.
  induction m as [|m IH]; [apply (T_one (Vector (tab n (fun i => g i 0))))|]. rewrite tab_S. eapply T_more; [exact IH|]. cbn [add].
  rewrite vadd_form by now rewrite !tab_length. rewrite tab_length. do 2 f_equal. apply tab_ext. intros i Hi. unfold com. rewrite !tab_nth by exact Hi. now rewrite upto_S.
Qed.
Lemma total_matrix r n (g : nat -> nat -> nat -> T) m : 0 < r ->
  total (tab (S m) (fun k => Matrix (tab2 r n (fun i j => g i j k)))) (Matrix (tab2 r n (fun i j => upto (g i j) m))).
Proof.
  intros Hr. induction m as [|m IH]; [apply (T_one (Matrix (tab2 r n (fun i j => g i j 0))))|]. rewrite tab_S. eapply T_more; [exact IH|]. cbn [add].
  rewrite (madd_form _ _ r n Hr (tab2_shape _ _ _) (tab2_shape _ _ _)). do 2 f_equal. apply tab2_ext. intros i j Hi Hj. rewrite !ent_tab2 by assumption. now rewrite upto_S.
Qed.
Lemma column_one n (g : nat -> V) i : column i (tab n (fun k => [g k])) = match i with 0 => tab n g | _ => [] end.
Proof.
  unfold column. rewrite tab_map. destruct i as [|i]; cbn [nth_error].
  - unfold tab. generalize 0. induction n as [|n IH]; intros k; [reflexivity|]. cbn. f_equal. apply IH.
  - unfold tab. generalize 0. induction n as [|n IH]; intros k; [reflexivity|]. cbn. destruct i; cbn; apply IH.
Qed.

Section Entries.
Variables (la lb : AST N) (x : str) (a b : T) (c : Ctx N) (ps : list T).
Hypothesis Hd : distinct_names c.
Hypothesis Hla : outcome la c (Ok [Scalar a]).
Hypothesis Hlb : outcome lb c (Ok [Scalar b]).
Hypothesis Hne : neqb a b = false.
Hypothesis Hba : nltb b a = false.
Hypothesis Hab : nltb a b = true.
Hypothesis Hv : visits (width a b) b a ps.
Definition number_at_samples (e : AST N) : Prop :=
  forall q, In q ps -> exists s, outcome e (set_num c x (sample (width a b) q)) (Ok [Scalar s]).

Lemma ps_ne : exists m, List.length ps = S m.
Proof. inversion Hv as [p Hp|p ps' Hp Hv' E1 E2]; [congruence|]. eexists. reflexivity. Qed.
Lemma entry_samples e : number_at_samples e -> exists g : nat -> T,
  (forall k d, k < List.length ps -> outcome e (set_num c x (sample (width a b) (nth k ps d))) (Ok [Scalar (g k)])) /\
  outcome (AInt e x la lb) c (Ok [Scalar (nmul (upto g (pred (List.length ps))) (width a b))]).
Proof.
  intros H. apply choose in H as [ss Hs]. destruct ps_ne as [m Em]. pose proof (Forall2_length Hs) as Hl.
  destruct ss as [|s0 ss]; [cbn in Hl; lia|]. exists (fun k => nth k (s0 :: ss) n0). split.
  - intros k d Hk. apply (Forall2_nth _ _ _ d n0 Hs k Hk).
  - replace (pred (List.length ps)) with (List.length ss) by (cbn in Hl; lia). rewrite <- upto_list. apply (c29_sum_of_samples _ _ _ _ _ _ _ ps); assumption.
Qed.

Lemma vector_integral es : (forall e, In e es -> number_at_samples e) ->
  exists v, outcome (AInt (AVector es) x la lb) c (Ok [Vector v]) /\ Forall2 (fun e s => outcome (AInt e x la lb) c (Ok [Scalar s])) es v.
Proof.
  intros H. set (d0 := AScalar n0 : AST N).
  assert (Hc : exists gs, Forall2 (fun e (g : nat -> T) =>
      (forall k d, k < List.length ps -> outcome e (set_num c x (sample (width a b) (nth k ps d))) (Ok [Scalar (g k)])) /\
      outcome (AInt e x la lb) c (Ok [Scalar (nmul (upto g (pred (List.length ps))) (width a b))])) es gs).
  { apply choose. intros e He. apply entry_samples. auto. }
  destruct Hc as [gs Hg]. set (g i := nth i gs (fun _ => n0)). destruct ps_ne as [m Em].
  assert (Hg' : forall i, i < List.length es -> 
      (forall k d, k < List.length ps -> outcome (nth i es d0) (set_num c x (sample (width a b) (nth k ps d))) (Ok [Scalar (g i k)])) /\
      outcome (AInt (nth i es d0) x la lb) c (Ok [Scalar (nmul (upto (g i) (pred (List.length ps))) (width a b))])).
  { intros i Hi. exact (Forall2_nth _ _ _ d0 (fun _ => n0) Hg i Hi). }
  exists (tab (List.length es) (fun i => nmul (upto (g i) m) (width a b))). split.
  - apply (c70_sums _ _ _ _ a b c ps (tab (List.length ps) (fun k => [Vector (tab (List.length es) (fun i => g i k))]))); auto.
    + apply (Forall2_tab _ _ _ n0). intros k Hk.
      replace [Vector (tab (List.length es) (fun i => g i k))] with (map (@Vector N) (choices (map (fun s => [s]) (tab (List.length es) (fun i => g i k))))) by now rewrite choices_singletons.
      rewrite tab_map. apply vector_outcome. apply (Forall2_tab _ _ _ d0). intros i Hi. apply (Hg' i Hi). exact Hk.
    + intros [|i]; rewrite column_one; cbn [nth_error]; [|destruct i; reflexivity]. rewrite Em. eexists. split; [apply total_vector|].
      cbn [mult]. rewrite svmult_form, tab_length. do 2 f_equal. apply tab_ext. intros i Hi. unfold com. now rewrite tab_nth.
  - apply (Forall2_tab _ _ _ d0). intros i Hi. destruct (Hg' i Hi) as [_ G]. rewrite Em in G. exact G.
Qed.
Lemma matrix_integral rows r n : 0 < r -> shape rows r n -> (forall row e, In row rows -> In e row -> number_at_samples e) ->
  exists m, outcome (AInt (AMatrix rows) x la lb) c (Ok [Matrix m]) /\ Forall2 (Forall2 (fun e s => outcome (AInt e x la lb) c (Ok [Scalar s]))) rows m.
Proof.
  intros Hr Hsh H. set (d0 := AScalar n0 : AST N).
  assert (Hc : exists gs, Forall2 (Forall2 (fun e (g : nat -> T) =>
      (forall k d, k < List.length ps -> outcome e (set_num c x (sample (width a b) (nth k ps d))) (Ok [Scalar (g k)])) /\
      outcome (AInt e x la lb) c (Ok [Scalar (nmul (upto g (pred (List.length ps))) (width a b))]))) rows gs).
  { apply choose. intros row Hrow. apply choose. intros e He. apply entry_samples. eauto. }
  destruct Hc as [gs Hg]. set (g i j := nth j (nth i gs []) (fun _ => n0)). destruct ps_ne as [m Em].
  assert (Hlen : forall i, i < r -> List.length (nth i rows []) = n).
  { intros i Hi. destruct Hsh as [H1 H2]. rewrite Forall_forall in H2. apply H2. apply nth_In. lia. }
  assert (Hg' : forall i j, i < r -> j < n ->
      (forall k d, k < List.length ps -> outcome (nth j (nth i rows []) d0) (set_num c x (sample (width a b) (nth k ps d))) (Ok [Scalar (g i j k)])) /\
      outcome (AInt (nth j (nth i rows []) d0) x la lb) c (Ok [Scalar (nmul (upto (g i j) (pred (List.length ps))) (width a b))])).
  { intros i j Hi Hj. refine (Forall2_nth _ _ _ d0 (fun _ => n0) (Forall2_nth _ _ _ [] [] Hg i _) j _); [destruct Hsh; lia|rewrite Hlen; lia]. }
  assert (Hrows : forall (P : AST N -> T -> Prop) f, (forall i j, i < r -> j < n -> P (nth j (nth i rows []) d0) (f i j)) -> Forall2 (Forall2 P) rows (tab2 r n f)).
  { intros P f HP. destruct Hsh as [H1 _]. unfold tab2. rewrite <- H1. apply (Forall2_tab _ _ _ []). intros i Hi. rewrite <- (Hlen i) by lia.
    apply (Forall2_tab _ _ _ d0). intros j Hj. rewrite Hlen in Hj by lia. apply HP; lia. }
  exists (tab2 r n (fun i j => nmul (upto (g i j) m) (width a b))). split.
  - apply (c70_sums _ _ _ _ a b c ps (tab (List.length ps) (fun k => [Matrix (tab2 r n (fun i j => g i j k))]))); auto.
    + apply (Forall2_tab _ _ _ n0). intros k Hk.
      replace [Matrix (tab2 r n (fun i j => g i j k))] with (map (@Matrix N) (choices (map choices (map (map (fun s => [s])) (tab2 r n (fun i j => g i j k)))))).
      2: { rewrite map_map. rewrite (map_ext _ (fun r => [r])) by (intros; apply choices_singletons). now rewrite choices_singletons. }
      apply matrix_outcome.
      assert (G := Hrows (fun e s => outcome e (set_num c x (sample (width a b) (nth k ps n0))) (Ok [Scalar s])) (fun i j => g i j k)
        (fun i j Hi Hj => proj1 (Hg' i j Hi Hj) k n0 Hk)).
      clear -G. induction G as [|row srow rows srows G1 _ IH]; [constructor|]. cbn [map]. constructor; [|exact IH].
      clear -G1. induction G1; constructor; auto.
    + intros [|i]; rewrite column_one; cbn [nth_error]; [|destruct i; reflexivity]. rewrite Em. eexists. split; [now apply total_matrix|].
      cbn [mult]. rewrite (smmult_form _ _ r n Hr (tab2_shape _ _ _)). do 2 f_equal. apply tab2_ext. intros i j Hi Hj. now rewrite ent_tab2.
  - apply Hrows. intros i j Hi Hj. destruct (Hg' i j Hi Hj) as [_ G]. rewrite Em in G. exact G.
Qed.
End Entries.

(** The integral of a vector is the vector of the integrals; likewise for
    matrices - bit for bit. *)
Theorem c70_vector_integral la lb x a b (c : Ctx N) ps es : distinct_names c ->
  outcome la c (Ok [Scalar a]) -> outcome lb c (Ok [Scalar b]) ->
  neqb a b = false -> nltb b a = false -> nltb a b = true -> visits (width a b) b a ps ->
  (forall e, In e es -> number_at_samples x a b c ps e) ->
  exists v, outcome (AInt (AVector es) x la lb) c (Ok [v]) /\ outcome (AVector (map (fun e => AInt e x la lb) es)) c (Ok [v]).
Proof.
  intros Hd Hla Hlb Hne Hba Hab Hv H. destruct (vector_integral la lb x a b c ps Hd Hla Hlb Hne Hba Hab Hv es H) as (v & H1 & H2).
  exists (Vector v). split; [exact H1|]. replace [Vector v] with (map (@Vector N) (choices (map (fun s => [s]) v))) by now rewrite choices_singletons.
  apply vector_outcome. clear -H2. induction H2; constructor; auto.
Qed.
Theorem c70_matrix_integral la lb x a b (c : Ctx N) ps rows r n : distinct_names c ->
  outcome la c (Ok [Scalar a]) -> outcome lb c (Ok [Scalar b]) ->
  neqb a b = false -> nltb b a = false -> nltb a b = true -> visits (width a b) b a ps ->
  0 < r -> shape rows r n -> (forall row e, In row rows -> In e row -> number_at_samples x a b c ps e) ->
  exists v, outcome (AInt (AMatrix rows) x la lb) c (Ok [v]) /\ outcome (AMatrix (map (map (fun e => AInt e x la lb)) rows)) c (Ok [v]).
Proof.
  intros Hd Hla Hlb Hne Hba Hab Hv Hr Hsh H. destruct (matrix_integral la lb x a b c ps Hd Hla Hlb Hne Hba Hab Hv rows r n Hr Hsh H) as (m & H1 & H2).
  exists (Matrix m). split; [exact H1|]. replace [Matrix m] with (map (@Matrix N) (choices (map choices (map (map (fun s => [s])) m)))).
  2: { rewrite map_map. rewrite (map_ext _ (fun r => [r])) by (intros; apply choices_singletons). now rewrite choices_singletons. }
  apply matrix_outcome. clear -H2. induction H2 as [|row srow rows m G _ IH]; [constructor|]. cbn [map]. constructor; [|exact IH].
  clear -G. induction G; constructor; auto.
Qed.

Lemma combine_tab {B} (f : T * T -> B) (ys yhs : list T) : List.length yhs = List.length ys ->
  map f (combine ys yhs) = tab (List.length ys) (fun i => f (com ys i, com yhs i)).
Proof.
  revert yhs. induction ys as [|y ys IH]; intros [|yh yhs] L; try discriminate; [reflexivity|]. cbn [combine map].
  rewrite IH by (cbn in L; lia). unfold tab. cbn [List.length seq map]. f_equal. now rewrite <- seq_shift, map_map.
Qed.
(** The derivative of a vector: each component is the difference of the
    component's values times [1/h]. *)
Theorem c70_vector_derivative (es : list (AST N)) at_ x s c ys yhs :
  outcome at_ c (Ok [Scalar s]) ->
  Forall2 (fun e y => outcome e (set_num c x s) (Ok [Scalar y])) es ys ->
  Forall2 (fun e y => outcome e (set_num c x (nadd s step_h)) (Ok [Scalar y])) es yhs ->
  outcome (ADer (AVector es) x at_) c (Ok [Vector (map (fun p => nmul (nadd (snd p) (nmul (fst p) nm1)) (ndiv n1 step_h)) (combine ys yhs))]).
Proof.
  intros Ha H1 H2.
  assert (G : forall c' zs, Forall2 (fun e y => outcome e c' (Ok [Scalar y])) es zs -> outcome (AVector es) c' (Ok [Vector zs])).
  { clear. intros c' zs H. replace [Vector zs] with (map (@Vector N) (choices (map (fun s => [s]) zs))) by now rewrite choices_singletons.
    apply vector_outcome. induction H; constructor; auto. }
  pose proof (c31_difference_quotient _ _ _ _ _ _ _ Ha (G _ _ H1) (G _ _ H2) eq_refl) as R. cbn [combine mapM] in R.
  assert (L : List.length yhs = List.length ys) by (rewrite <- (Forall2_length H1), <- (Forall2_length H2); reflexivity).
  replace (quotient _ _) with (@Ok string _ (Vector (map (fun p => nmul (nadd (snd p) (nmul (fst p) nm1)) (ndiv n1 step_h)) (combine ys yhs)))) in R; [exact R|].
  cbn [fst snd]. unfold quotient. cbn [sub]. rewrite vsub_form by exact L. cbn [bind div]. unfold vsdiv. rewrite svmult_form, tab_length.
  rewrite (combine_tab _ ys yhs L), L. do 2 f_equal. apply tab_ext. intros i Hi. cbn [fst snd]. unfold com. now rewrite tab_nth by exact Hi.
Qed.
(** Likewise for matrices. *)
Theorem c70_matrix_derivative (rows : list (list (AST N))) at_ x s c ys yhs r n : 0 < r -> shape rows r n ->
  outcome at_ c (Ok [Scalar s]) ->
  Forall2 (Forall2 (fun e y => outcome e (set_num c x s) (Ok [Scalar y]))) rows ys ->
  Forall2 (Forall2 (fun e y => outcome e (set_num c x (nadd s step_h)) (Ok [Scalar y]))) rows yhs ->
  outcome (ADer (AMatrix rows) x at_) c
    (Ok [Matrix (map (fun p => map (fun q => nmul (nadd (snd q) (nmul (fst q) nm1)) (ndiv n1 step_h)) (combine (fst p) (snd p))) (combine ys yhs))]).
Proof.
  intros Hr Hsh Ha H1 H2.
  assert (G : forall c' zs, Forall2 (Forall2 (fun e y => outcome e c' (Ok [Scalar y]))) rows zs -> outcome (AMatrix rows) c' (Ok [Matrix zs])).
  { clear. intros c' zs H. replace [Matrix zs] with (map (@Matrix N) (choices (map choices (map (map (fun s => [s])) zs)))).
    2: { rewrite map_map. rewrite (map_ext _ (fun r => [r])) by (intros; apply choices_singletons). now rewrite choices_singletons. }
    apply matrix_outcome. induction H as [|row srow rows m G _ IH]; [constructor|]. cbn [map]. constructor; [|exact IH]. clear -G. induction G; constructor; auto. }
  assert (S : forall zs (P : AST N -> T -> Prop), Forall2 (Forall2 P) rows zs -> shape zs r n).
  { clear -Hsh. intros zs P H. destruct Hsh as [L F]. split; [now rewrite <- (Forall2_length H)|]. clear L.
    induction H as [|row z rows zs Hz H IH]; [constructor|]. inversion F; subst. constructor; [now rewrite <- (Forall2_length Hz)|auto]. }
  pose proof (c31_difference_quotient _ _ _ _ _ _ _ Ha (G _ _ H1) (G _ _ H2) eq_refl) as R. cbn [combine mapM] in R.
  apply S in H1, H2. 
  match goal with |- outcome _ _ (Ok [?m]) => replace (quotient _ _) with (@Ok string _ m) in R; [exact R|] end.
  cbn [fst snd]. unfold quotient. cbn [sub]. rewrite (msub_form _ _ r n Hr H2 H1). cbn [bind div]. unfold msdiv.
  rewrite (smmult_form _ _ r n Hr (tab2_shape _ _ _)). do 2 f_equal.
  transitivity (tab2 r n (fun i j => nmul (nadd (ent yhs i j) (nmul (ent ys i j) nm1)) (ndiv n1 step_h))).
  - unfold tab2. destruct H1 as [L1 F1], H2 as [L2 F2]. clear -L1 F1 L2 F2. revert ys yhs L1 F1 L2 F2.
    induction r as [|r IH]; intros [|y ys] [|yh yhs] L1 F1 L2 F2; try discriminate; [reflexivity|].
    inversion F1 as [|? ? E1 F1']; inversion F2 as [|? ? E2 F2']; subst. injection L1 as L1. injection L2 as L2.
    cbn [combine map fst snd]. unfold tab. cbn [seq map]. f_equal.
    + rewrite combine_tab by congruence. apply tab_ext. intros i Hi. cbn [fst snd]. unfold com, ent. cbn [nth]. reflexivity.
    + rewrite (IH ys yhs L1 F1' L2 F2'). unfold tab. rewrite <- seq_shift, map_map. apply map_ext. intros i. reflexivity.
  - apply tab2_ext. intros i j Hi Hj. now rewrite ent_tab2 by assumption.
Qed.
End Generic.

Module Examples.
Import PropCalc.Examples.
Local Existing Instance NT.
Local Existing Instance ET.
(** D(x*x, x, {2, 3}) behaves as {D(x*x, x, 2), D(x*x, x, 3)} *)
Example two_points : same_behaviour (ADer sq X (AList [AScalar (num 2); AScalar (num 3)])) ctx0
  (AList [ADer sq X (AScalar (num 2)); ADer sq X (AScalar (num 3))]) ctx0.
Proof.
  apply (c70_points sq (AList [AScalar (num 2); AScalar (num 3)]) X ctx0 [sc 2; sc 3]).
  apply (list_outcome [] ctx0 [AScalar (num 2); AScalar (num 3)] [[sc 2]; [sc 3]]). repeat constructor; try discriminate; apply (scalar_outcome []).
Qed.
(** I(x*x, x, {0, 1}, 2) behaves as {I(x*x, x, 0, 2), I(x*x, x, 1, 2)} *)
Example two_bounds : same_behaviour (AInt sq X (AList [AScalar (num 0); AScalar (num 1)]) (AScalar (num 2))) ctx0
  (AList [AInt sq X (AScalar (num 0)) (AScalar (num 2)); AInt sq X (AScalar (num 1)) (AScalar (num 2))]) ctx0.
Proof.
  apply (c70_bounds sq (AList [AScalar (num 0); AScalar (num 1)]) (AScalar (num 2)) X ctx0 [sc 0; sc 1] [sc 2]).
  - apply (list_outcome [] ctx0 [AScalar (num 0); AScalar (num 1)] [[sc 0]; [sc 1]]). repeat constructor; try discriminate; apply (scalar_outcome []).
  - apply (scalar_outcome []).
Qed.
(** D([x, x*x], x, 3) *)
Example vector_derivative : exists v, outcome (ADer (AVector [vx; sq]) X (AScalar (num 3))) ctx0 (Ok [Vector v]) /\ List.length v = 2.
Proof.
  eexists. split; [|shelve].
  apply (c70_vector_derivative [vx; sq] (AScalar (num 3)) X (num 3) ctx0 [num 3; nmul (num 3) (num 3)]
    [nadd (num 3) step_h; nmul (nadd (num 3) step_h) (nadd (num 3) step_h)]); [apply (scalar_outcome [])| |].
  - constructor; [apply x_outcome|]. constructor; [apply sq_outcome|constructor].
  - constructor; [apply x_outcome|]. constructor; [apply sq_outcome|constructor].
  Unshelve. reflexivity.
Qed.
(** D([[x, x*x]], x, 3): both rows of the hypotheses are met. *)
Example matrix_derivative : exists m, outcome (ADer (AMatrix [[vx; sq]]) X (AScalar (num 3))) ctx0 (Ok [Matrix m]).
Proof.
  eexists.
  apply (c70_matrix_derivative [[vx; sq]] (AScalar (num 3)) X (num 3) ctx0 [[num 3; nmul (num 3) (num 3)]]
    [[nadd (num 3) step_h; nmul (nadd (num 3) step_h) (nadd (num 3) step_h)]] 1 2); [lia|split; [reflexivity|repeat constructor]|apply (scalar_outcome [])| |].
  - constructor; [|constructor]. constructor; [apply x_outcome|]. constructor; [apply sq_outcome|constructor].
  - constructor; [|constructor]. constructor; [apply x_outcome|]. constructor; [apply sq_outcome|constructor].
Qed.
End Examples.
