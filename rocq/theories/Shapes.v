(** * Shapes: kinds are respected by every operation and by evaluation. *)
From Coq Require Import List NArith ZArith Bool Arith Lia String.
From Verif Require Import Base BaseFacts F64 Num Types Maths Helpers Parser Eval SpecEval EvalFuel EvalProofs EvalTotal GrammarSpec
  ParserSpec ShapeSpec MathsForms.
Import ListNotations.
Local Open Scope string_scope.
Local Open Scope list_scope.

Section Ops.
Context {N : Num}.
Notation V := (Value N).

Lemma has_kind_S (v : V) : has_kind v KS -> exists s, v = Scalar s.
Proof. destruct v; cbn; try easy. eauto. Qed.
Lemma has_kind_V (v : V) n : has_kind v (KV n) -> exists l, v = Vector l /\ 0 < n /\ List.length l = n.
Proof. destruct v; cbn; try easy. eauto. Qed.
Lemma has_kind_M (v : V) r c : has_kind v (KM r c) -> exists m, v = Matrix m /\ 0 < r /\ 0 < c /\ shape m r c.
Proof. destruct v; cbn; try easy. eauto. Qed.

Ltac kinds :=
  repeat match goal with
  | H : has_kind _ KS |- _ => apply has_kind_S in H as (? & ->)
  | H : has_kind _ (KV _) |- _ => apply has_kind_V in H as (? & -> & ? & ?)
  | H : has_kind _ (KM _ _) |- _ => apply has_kind_M in H as (? & -> & ? & ? & ?)
  end.

Definition meets (r : res string V) (k : option kind) : Prop :=
  match k with Some k => exists v, r = Ok v /\ has_kind v k | None => exists e, r = Err e end.

Lemma tabv n (f : nat -> T) : 0 < n -> @has_kind N (Vector (tab n f)) (KV n).
Proof. intros H. cbn. split; [assumption|apply tab_length]. Qed.
Lemma tabm r c (f : nat -> nat -> T) : 0 < r -> 0 < c -> @has_kind N (Matrix (tab2 r c f)) (KM r c).
Proof. intros H H1. cbn. auto using tab2_shape. Qed.

Lemma add_meets (x y : V) k1 k2 : has_kind x k1 -> has_kind y k2 -> meets (add x y) (op_kind OAdd k1 k2).
Proof.
  intros Hx Hy. destruct k1 as [|n|r c], k2 as [|n'|r' c']; kinds; cbn [add op_kind]; try (eexists; reflexivity); try (eexists; split; [reflexivity|exact I]).
  - destruct (Nat.eqb_spec n n').
    + eexists; split; [apply vadd_form; lia|]. rewrite H2. now apply tabv.
    + eexists; apply vadd_err; lia.
  - destruct (Nat.eqb_spec r r'), (Nat.eqb_spec c c'); cbn [andb]; subst.
    + eexists; split; [apply (madd_form _ _ r' c'); assumption|]. now apply tabm.
    + eexists. eapply madd_err; [| |eassumption|eassumption|]; auto.
    + eexists. eapply madd_err; [| |eassumption|eassumption|]; auto.
    + eexists. eapply madd_err; [| |eassumption|eassumption|]; auto.
Qed.
Lemma sub_meets (x y : V) k1 k2 : has_kind x k1 -> has_kind y k2 -> meets (sub x y) (op_kind OAdd k1 k2).
Proof.
  intros Hx Hy. destruct k1 as [|n|r c], k2 as [|n'|r' c']; kinds; cbn [sub op_kind]; try (eexists; reflexivity); try (eexists; split; [reflexivity|exact I]).
  - destruct (Nat.eqb_spec n n').
    + eexists; split; [apply vsub_form; lia|]. rewrite H2. now apply tabv.
    + eexists; unfold vsub; apply vadd_err; rewrite map_length; lia.
  - destruct (Nat.eqb_spec r r'), (Nat.eqb_spec c c'); cbn [andb]; subst.
    + eexists; split; [apply (msub_form _ _ r' c'); assumption|]. now apply tabm.
    + eexists. eapply msub_err; [| |eassumption|eassumption|]; auto.
    + eexists. eapply msub_err; [| |eassumption|eassumption|]; auto.
    + eexists. eapply msub_err; [| |eassumption|eassumption|]; auto.
Qed.
Lemma neg_meets (y : V) k : has_kind y k -> meets (neg y) (Some k).
Proof.
  destruct k; intros H; kinds; cbn [neg]; eexists; (split; [reflexivity|]); cbn; auto.
  - now rewrite map_length.
  - repeat (split; auto). { destruct H1. now rewrite map_length. }
    destruct H1 as [_ H1]. rewrite Forall_forall in *. intros l Hl. apply in_map_iff in Hl as (l' & <- & Hl). rewrite map_length. auto.
Qed.
Lemma mult_meets (x y : V) k1 k2 : has_kind x k1 -> has_kind y k2 -> meets (mult x y) (op_kind OMult k1 k2).
Proof.
  intros Hx Hy. destruct k1 as [|n|r c], k2 as [|n'|r' c']; kinds; cbn [mult op_kind]; try (eexists; reflexivity); try (eexists; split; [reflexivity|exact I]).
  - eexists; split; [apply svmult_form|]. rewrite H0; now apply tabv.
  - eexists; split; [first [apply (smmult_form _ _ r c); assumption|apply (smmult_form _ _ r' c'); assumption]|]. now apply tabm.
  - eexists; split; [apply svmult_form|]. rewrite H0; now apply tabv.
  - destruct (Nat.eqb_spec n n').
    + eexists; split; [apply vvmult_form; lia|]. exact I.
    + unfold vvmult. rewrite H0, H2. apply Nat.eqb_neq in n0. rewrite n0. cbn. eauto.
  - eexists; split; [first [apply (smmult_form _ _ r c); assumption|apply (smmult_form _ _ r' c'); assumption]|]. now apply tabm.
  - destruct (Nat.eqb_spec c n').
    + subst. eexists; split; [eapply (mvmult_form _ _ r); try eassumption; reflexivity|]. now apply tabv.
    + unfold mvmult. rewrite (row0_len_shape _ r c) by assumption. cbn [bind]. rewrite H0. apply Nat.eqb_neq in n. rewrite n. cbn. eauto.
  - destruct (Nat.eqb_spec c r').
    + subst. eexists; split; [eapply mmmult_form; [| |eassumption|eassumption]; assumption|]. now apply tabm.
    + eexists; eapply mmmult_err; [| |eassumption|eassumption|]; assumption.
Qed.
Lemma div_meets (x y : V) k1 k2 : has_kind x k1 -> has_kind y k2 -> meets (div x y) (op_kind ODiv k1 k2).
Proof.
  intros Hx Hy. destruct k1 as [|n|r c], k2 as [|n'|r' c']; kinds; cbn [div op_kind]; try (eexists; reflexivity); try (eexists; split; [reflexivity|exact I]).
  - eexists; split; [apply svmult_form|]. rewrite H0; now apply tabv.
  - destruct (Nat.eqb_spec n n').
    + eexists; split; [apply vvdiv_form; lia|]. exact I.
    + unfold vvdiv. rewrite H0, H2. apply Nat.eqb_neq in n0. rewrite n0. cbn. eauto.
  - eexists; split; [first [apply (smmult_form _ _ r c); assumption|apply (smmult_form _ _ r' c'); assumption]|]. now apply tabm.
Qed.
Lemma cross_meets (x y : V) k1 k2 : has_kind x k1 -> has_kind y k2 -> meets (cross x y) (op_kind OCross k1 k2).
Proof.
  intros Hx Hy. destruct k1 as [|n|r c], k2 as [|n'|r' c']; kinds; cbn [cross op_kind]; try (eexists; reflexivity); try (eexists; split; [reflexivity|exact I]).
  unfold vcross. rewrite H0, H2. destruct (Nat.eqb_spec n n'); cbn [negb andb]; [|cbn; eauto].
  destruct (Nat.ltb_spec 3 n), (Nat.leb_spec n 3); try lia; [cbn; eauto|].
  eexists; split; [reflexivity|]. cbn; auto.
Qed.
Lemma det_meets (x : V) k1 k2 : has_kind x k1 -> meets (det x) (op_kind ODet k1 k2).
Proof.
  intros Hx. destruct k1 as [|n|r c]; kinds; cbn [det op_kind]; try (eexists; reflexivity); try (eexists; split; [reflexivity|exact I]).
  destruct (Nat.eqb_spec r c).
  - subst. eexists; split; [apply (det_form _ c); assumption|exact I].
  - eexists; eapply det_nonsquare; [|eassumption|]; assumption.
Qed.
Lemma single_meets (r : res string V) k : meets r k ->
  match k with
  | Some k => exists vs, single r = Ok vs /\ List.length vs = 1 /\ Forall (fun v => has_kind v k) vs
  | None => exists e, single r = Err e
  end.
Proof.
  destruct k; cbn.
  - intros (v & -> & Hv). exists [v]. cbn. auto.
  - intros (e & ->). exists e. reflexivity.
Qed.

Theorem kinds_table op (x y : V) k1 k2 : in_table op = true -> has_kind x k1 -> has_kind y k2 ->
  match op_kind op k1 k2 with
  | Some k => exists vs, op_meaning op x y = Ok vs /\ List.length vs = op_width op /\ Forall (fun v => has_kind v k) vs
  | None => exists e, op_meaning op x y = Err e
  end.
Proof.
  intros Ht Hx Hy.
  assert (Hsc : forall f a b, meets (scalar_fn f a b x) (op_kind OSin k1 k2)).
  { intros f a b. destruct k1; kinds; try (eexists; reflexivity); (eexists; split; [reflexivity|exact I]). }
  destruct op; try discriminate Ht; cbn [op_meaning op_width].
  all: try (apply single_meets;
    first [exact (add_meets x y k1 k2 Hx Hy)|exact (sub_meets x y k1 k2 Hx Hy)|exact (neg_meets y k2 Hy)|exact (mult_meets x y k1 k2 Hx Hy)
          |exact (div_meets x y k1 k2 Hx Hy)|exact (cross_meets x y k1 k2 Hx Hy)|exact (det_meets x k1 k2 Hx)|exact (Hsc _ _ _)]).
  - pose proof (add_meets x y k1 k2 Hx Hy) as Ha. pose proof (sub_meets x y k1 k2 Hx Hy) as Hs.
    change (op_kind OAddSub k1 k2) with (op_kind OAdd k1 k2). destruct (op_kind OAdd k1 k2).
    + destruct Ha as (v & -> & Hv), Hs as (w & -> & Hw). exists [v; w]. cbn. auto.
    + destruct Ha as (e & ->). exists e. reflexivity.
  - apply single_meets. destruct k1; kinds; cbn [abs op_kind]; try (eexists; reflexivity); try (eexists; split; [reflexivity|exact I]).
    destruct (nltb _ n0); eexists; (split; [reflexivity|exact I]).
  - apply single_meets. destruct k1, k2; kinds; cbn [root op_kind]; try (eexists; reflexivity); try (eexists; split; [reflexivity|exact I]).
  - exists [x]. cbn. auto.
Qed.

(** [v?i] *)
Theorem get_table (v : list T) (i : T) : v <> [] ->
  (nrem1_zero i = true /\ nsign_neg i = false /\ (nto_usize i < Z.of_nat (List.length v))%Z ->
     forall x, nth_error v (Z.to_nat (nto_usize i)) = Some x -> get (Vector v) (Scalar i) = Ok (Scalar x)) /\
  (~ (nrem1_zero i = true /\ nsign_neg i = false /\ (nto_usize i < Z.of_nat (List.length v))%Z) ->
     exists e, get (Vector v) (Scalar i) = Err e).
Proof.
  intros Hv. unfold get. destruct v as [|y v]; [easy|]. set (w := y :: v) in *. split.
  - intros (-> & -> & H) x Hx. cbn [negb orb]. rewrite Z.gtb_ltb. destruct (Z.ltb_spec (Z.of_nat (List.length w) - 1) (nto_usize i)); [lia|].
    unfold idx. rewrite Hx. reflexivity.
  - intros H. destruct (nrem1_zero i); cbn [negb orb]; [|eauto]. destruct (nsign_neg i); [eauto|].
    rewrite Z.gtb_ltb. destruct (Z.ltb_spec (Z.of_nat (List.length w) - 1) (nto_usize i)); [eauto|].
    exfalso. apply H. repeat split; auto. lia.
Qed.

(** Matrix powers and inverse. *)
Theorem pow_table (m : list (list T)) (b : T) r c : 0 < r -> 0 < c -> shape m r c ->
  if (neqb (nround b) b && (Nat.eqb r c || Z.leb (nto_i32 b) 0))%bool
  then exists v, pow (Matrix m) (Scalar b) = Ok v /\ has_kind v (KM r c)
  else exists e, pow (Matrix m) (Scalar b) = Err e.
Proof.
  intros Hr Hc Hm. cbn [pow]. destruct (neqb (nround b) b) eqn:Hb; cbn [andb].
  - destruct (Nat.eqb_spec r c) as [->|Hn]; cbn [orb].
    + eexists; split; [apply (mspow_form _ c); assumption|]. now apply tabm.
    + rewrite (mspow_nonsquare _ r c) by assumption. rewrite Z.leb_antisym.
      destruct (Z.ltb 0 (nto_i32 b)); cbn [negb]; [eauto|]. eexists; split; [reflexivity|]. now apply tabm.
  - eexists; now apply mspow_nonint.
Qed.
Theorem inv_table (m : list (list T)) r c : 0 < r -> 0 < c -> shape m r c ->
  (r <> c -> exists e, inv (Matrix m) = Err e) /\
  ((exists e, inv (Matrix m) = Err e) \/ (r = c /\ exists v, inv (Matrix m) = Ok v /\ has_kind v (KM r c))).
Proof.
  intros Hr Hc Hm. cbn [inv]. split.
  - intros H. eexists; eapply inv_nonsquare; [|eassumption|]; assumption.
  - destruct (Nat.eq_dec r c) as [->|H].
    + rewrite (inv_form m c) by assumption. destruct (neqb _ n0); [left; eauto|].
      pose proof (augmented_shape c m Hm) as Ha.
      destruct (elim_total "Infinite solutions" c (c + c) (augmented c m)) as [->|(v & Ev)]; [left; cbn; eauto|].
      rewrite Ev. cbn [bind].
      destruct (elim_total "Infinite solutions" c (c + c) (flip c v)) as [->|(w & Ew)]; [left; cbn; eauto|].
      rewrite Ew. cbn [bind]. right. split; [reflexivity|]. eexists; split; [reflexivity|]. now apply tabm.
    + left. eexists; eapply inv_nonsquare; [|eassumption|]; assumption.
Qed.

(** Whatever the operator: no panic, and well-formed results. *)
Theorem op_safe op (x y : V) : well_formed x -> well_formed y ->
  sat (Forall well_formed) (fun _ => True) False False (op_meaning op x y).
Proof.
  intros (k1 & Hx) (k2 & Hy). destruct (in_table op) eqn:Ht.
  - pose proof (kinds_table op x y k1 k2 Ht Hx Hy) as H. destruct (op_kind op k1 k2).
    + destruct H as (vs & -> & _ & H). cbn. eapply Forall_impl; [|exact H]. intros v Hv; now exists k.
    + destruct H as (e & ->). exact I.
  - assert (G : forall r, ((exists e, r = Err e) \/ exists v, r = Ok v /\ well_formed v) ->
             sat (Forall well_formed) (fun _ => True) False False (@single N r)).
    { intros r [(e & ->)|(v & -> & Hv)]; cbn; auto. }
    destruct op; try discriminate; cbn [op_meaning]; apply G; clear G.
    + destruct k1, k2; try (kinds; left; eexists; reflexivity).
      * kinds. right. eexists; split; [reflexivity|]. now exists KS.
      * apply has_kind_M in Hx as (m & -> & Hr & Hc & Hm). apply has_kind_S in Hy as (b & ->).
        pose proof (pow_table m b r c Hr Hc Hm) as G.
        destruct (_ && _)%bool; [|left; exact G]. destruct G as (v & -> & Hv). right; exists v; split; [reflexivity|]. now exists (KM r c).
    + destruct k1, k2; try (kinds; left; eexists; reflexivity).
      apply has_kind_V in Hx as (l & -> & Hn & Hl). apply has_kind_S in Hy as (b & ->).
      assert (Hne : l <> []) by (destruct l; cbn in *; [lia|discriminate]).
      destruct (get_table l b Hne) as [G1 G2].
      destruct (nrem1_zero b) eqn:E1; [|left; apply G2; intros (? & _); discriminate].
      destruct (nsign_neg b) eqn:E2; [left; apply G2; intros (_ & ? & _); discriminate|].
      destruct (Z.lt_ge_cases (nto_usize b) (Z.of_nat (List.length l))) as [L|L]; [|left; apply G2; intros (_ & _ & ?); lia].
      assert (exists z, nth_error l (Z.to_nat (nto_usize b)) = Some z) as (z & Hz).
      { destruct (nth_error l (Z.to_nat (nto_usize b))) eqn:Ez; [eauto|]. apply nth_error_None in Ez. destruct l; [easy|]. cbn in Ez, L; lia. }
      right. exists (Scalar z). split; [apply G1; auto|now exists KS].
    + destruct k1; try (kinds; left; eexists; reflexivity).
      apply has_kind_M in Hx as (m & -> & Hr & Hc & Hm).
      destruct (inv_table m r c Hr Hc Hm) as [_ [G|(-> & v & E & Hv)]]; [left; exact G|right; exists v; split; [exact E|now eexists; exact Hv]].
Qed.
End Ops.

Section EvalSafe.
Context {N : Num} {En : Env}.
Notation V := (Value N).
Notation safe := (sat (Forall well_formed) (fun _ : EvalError => True) False True).

Definition gentle (a : AST N) : Prop := regular a /\ no_equation a.
Lemma gentle_child a b : gentle a -> In b (children a) -> gentle b.
Proof.
  intros [H1 H2] Hb. split.
  - intros x Hx. apply H1. econstructor; eauto.
  - intros eqs sv Hx. apply (H2 eqs sv). econstructor; eauto.
Qed.
Lemma gentle_scalar s : gentle (AScalar s).
Proof. split; [intros x Hx|intros eqs sv Hx]; inversion Hx; subst; try exact I; contradiction. Qed.
Lemma gentle_node a : gentle a -> match a with AVector v => v <> [] | AMatrix m => exists r c, 0 < r /\ 0 < c /\ shape m r c | AEq _ _ => False | _ => True end.
Proof. intros [H1 H2]. pose proof (H1 a (Node_here _)) as G. destruct a; auto. apply (H2 equations search_vars). constructor. Qed.
Lemma gentle_build a : match a with AVector v => v <> [] | AMatrix m => exists r c, 0 < r /\ 0 < c /\ shape m r c | AEq _ _ => False | _ => True end ->
  (forall b, In b (children a) -> gentle b) -> gentle a.
Proof.
  intros H1 H2. split.
  - intros x Hx. inversion Hx as [|b ? Hb Hn]; subst; [destruct a; auto|]. destruct (H2 b Hb) as [G _]. now apply G.
  - intros eqs sv Hx. inversion Hx as [|b ? Hb Hn]; subst; [exact H1|]. destruct (H2 b Hb) as [_ G]. now apply (G eqs sv).
Qed.
Lemma gentle_value (v : V) : well_formed v -> gentle (ast_from_value v).
Proof.
  intros (k & Hk). destruct v as [m|l|s], k; cbn in Hk; try easy; [| |apply gentle_scalar].
  - apply gentle_build.
    + cbn. exists r, c. destruct Hk as (Hr & Hc & H1 & H2). repeat split; auto; [now rewrite map_length|].
      rewrite Forall_forall in *. intros x Hx. apply in_map_iff in Hx as (y & <- & Hy). rewrite map_length. auto.
    + cbn. intros b Hb. apply in_concat in Hb as (x & Hx & Hb). apply in_map_iff in Hx as (y & <- & Hy). apply in_map_iff in Hb as (z & <- & _).
      apply gentle_scalar.
  - apply gentle_build.
    + cbn. destruct l; cbn in *; [lia|discriminate].
    + cbn. intros b Hb. apply in_map_iff in Hb as (z & <- & _). apply gentle_scalar.
Qed.
Definition fine_ctx (c : Ctx N) : Prop :=
  (forall v x, In v (vars c) -> In x (var_values v) -> well_formed x) /\ (forall f, In f (funs c) -> gentle (fun_ast f)).

Lemma mathe_op_safe op (x y : V) : well_formed x -> well_formed y -> safe (apply_op op x y).
Proof.
  intros Hx Hy. rewrite apply_op_meaning. unfold mathe. pose proof (op_safe op x y Hx Hy) as H. destruct (op_meaning op x y); cbn in *; auto.
Qed.
Lemma add_safe (x y : V) : well_formed x -> well_formed y -> sat well_formed (fun _ : EvalError => True) False True (mathe (add x y)).
Proof.
  intros Hx Hy. pose proof (op_safe OAdd x y Hx Hy) as H. cbn [op_meaning] in H. unfold mathe.
  destruct (add x y); cbn in *; auto. now inversion H.
Qed.
Lemma mult_safe (x y : V) : well_formed x -> well_formed y -> sat well_formed (fun _ : EvalError => True) False True (mathe (mult x y)).
Proof.
  intros Hx Hy. pose proof (op_safe OMult x y Hx Hy) as H. cbn [op_meaning] in H. unfold mathe.
  destruct (mult x y); cbn in *; auto. now inversion H.
Qed.
Lemma wf_scalar (s : T) : @well_formed N (Scalar s).
Proof. now exists KS. Qed.
Lemma concatM_safe {X} (f : X -> res EvalError (list V)) l : (forall x, In x l -> safe (f x)) -> safe (concatM f l).
Proof.
  intros H. unfold concatM. eapply (sat_bind (Forall (Forall well_formed))); [now apply sat_mapM|]. intros ls Hls. cbn.
  apply Forall_concat. exact Hls.
Qed.

Section Ev.
Variable ev : AST N -> Ctx N -> res EvalError (list V).
Hypothesis Hev : forall b c, gentle b -> fine_ctx c -> safe (ev b c).

Lemma add_samples_safe (sums es : list V) : Forall well_formed sums -> Forall well_formed es -> safe (add_samples sums es).
Proof.
  revert sums; induction es as [|e es IH]; intros [|s sums] Hs He; cbn [add_samples]; try exact Hs.
  - inversion He; subst. eapply (sat_bind (Forall well_formed)); [now apply IH|]. cbn. auto.
  - inversion He; inversion Hs; subst. eapply (sat_bind well_formed); [now apply add_safe|]. intros a Ha.
    eapply (sat_bind (Forall well_formed)); [now apply IH|]. cbn. auto.
Qed.
Lemma remove_first_in n l (v : MVar N) : In v (remove_first n l) -> In v l.
Proof. induction l as [|w l IH]; cbn; [easy|]. destruct (str_eqb _ _); cbn; [auto|]. intros [->|H]; auto. Qed.
Lemma integral_loop_safe f e x c dx ub b sums : gentle e -> fine_ctx c -> Forall well_formed sums ->
  safe (integral_loop ev f e x c (remove_first x (vars c)) dx ub b sums).
Proof.
  intros He Hc. revert b sums; induction f as [|f IH]; intros b sums Hs; cbn [integral_loop]; [exact I|].
  destruct (nltb b ub); [|exact Hs].
  eapply (sat_bind (Forall well_formed)).
  - apply Hev; [assumption|]. destruct Hc as [C1 C2]. split; [|exact C2]. cbn. intros v w Hv Hw. apply in_app_iff in Hv as [Hv|[<-|[]]].
    + apply (C1 v); auto. eapply remove_first_in; eauto.
    + cbn in Hw. destruct Hw as [<-|[]]. apply wf_scalar.
  - intros es Hes. eapply (sat_bind (Forall well_formed)); [now apply add_samples_safe|]. intros; now apply IH.
Qed.
Lemma integral_safe f e x l u c : gentle e -> fine_ctx c -> safe (calculate_integral ev f e x l u c).
Proof.
  intros He Hc. unfold calculate_integral. destruct l; try exact I. destruct u; try exact I.
  destruct (neqb s s0); [cbn; constructor; [apply wf_scalar|constructor]|].
  destruct (if nltb s0 s then (s0, s) else (s, s0)) as [lb ub]. cbv zeta.
  eapply (sat_bind (Forall well_formed)); [now apply integral_loop_safe|]. intros sums Hs.
  apply sat_mapM. intros y Hy. rewrite Forall_forall in Hs. apply mult_safe; auto using wf_scalar.
Qed.
Lemma fine_remove_var c x : fine_ctx c -> fine_ctx (remove_var c x).
Proof. intros [C1 C2]. split; [|exact C2]. cbn. intros v w Hv. apply filter_In in Hv as [Hv _]. now apply C1. Qed.
Lemma fine_add_var c v : fine_ctx c -> Forall well_formed (var_values v) -> fine_ctx (add_var c v).
Proof.
  intros [C1 C2] Hv. split; [|exact C2]. cbn. intros w y Hw Hy. apply in_app_iff in Hw as [Hw|[<-|[]]].
  - apply filter_In in Hw as [Hw _]. now apply (C1 w).
  - rewrite Forall_forall in Hv. now apply Hv.
Qed.
Lemma derivative_safe e x a c : gentle e -> fine_ctx c -> safe (fst (calculate_derivative ev e x a c)).
Proof.
  intros He Hc. unfold calculate_derivative. destruct a; try exact I.
  set (c1 := add_var (remove_var c x) (mkVar x [Scalar s])).
  assert (H1 : fine_ctx c1) by (apply fine_add_var; [now apply fine_remove_var|repeat constructor; apply wf_scalar]).
  pose proof (Hev e c1 He H1) as S1. destruct (ev e c1) as [fxs| | |]; try exact S1.
  set (c2 := add_var (remove_var c1 x) (mkVar x [Scalar (nadd s eps)])).
  assert (H2 : fine_ctx c2) by (apply fine_add_var; [now apply fine_remove_var|repeat constructor; apply wf_scalar]).
  pose proof (Hev e c2 He H2) as S2. destruct (ev e c2) as [fxhs| | |]; try exact S2.
  destruct (negb _); [exact I|]. cbn in S1, S2. rewrite Forall_forall in S1, S2.
  assert (S3 : sat (Forall (Forall well_formed)) (fun _ : EvalError => True) False True
     (mapM (fun p => ev (quotient_ast (snd p) (fst p)) c2) (combine fxs fxhs))).
  { apply sat_mapM. intros [u w] Huw. pose proof (in_combine_l _ _ _ _ Huw) as Hu. pose proof (in_combine_r _ _ _ _ Huw) as Hw.
    apply Hev; [|exact H2]. cbn [fst snd]. apply gentle_build; [exact I|]. cbn. intros b [<-|[<-|[]]]; [|apply gentle_scalar].
    apply gentle_build; [exact I|]. cbn. intros b [<-|[<-|[]]]; apply gentle_value; auto. }
  destruct (mapM _ (combine fxs fxhs)) as [rs| | |]; cbn in *; auto. now apply Forall_concat.
Qed.
End Ev.

Lemma scalars_safe e (l : list V) : sat (fun _ : list T => True) (fun _ : EvalError => True) False True (scalars_or e l).
Proof.
  unfold scalars_or. eapply sat_impl; [| | | |apply (sat_mapM (fun _ => True) (fun _ => True) False True)]; auto.
  intros v _. destruct (get_scalar v); exact I.
Qed.
Lemma push_in acc outer (v : MVar N) : In v (fold_left push_unshadowed outer acc) -> In v acc \/ In v outer.
Proof.
  revert acc; induction outer as [|w outer IH]; intros acc; cbn; [auto|]. intros H. apply IH in H as [H|H]; auto.
  unfold push_unshadowed in H. destruct (existsb _ _); auto. apply in_app_iff in H as [H|[<-|[]]]; auto.
Qed.
Lemma fine_call c params (p : list V) : fine_ctx c -> Forall well_formed p -> fine_ctx (mkCtx (call_vars params p (vars c)) (funs c)).
Proof.
  intros [C1 C2] Hp. split; [|exact C2]. cbn. intros v x Hv Hx. apply push_in in Hv as [Hv|Hv]; [|now apply (C1 v)].
  apply in_map_iff in Hv as ([n w] & <- & Hv). apply in_combine_r in Hv. cbn in Hx. destruct Hx as [<-|[]]. rewrite Forall_forall in Hp. auto.
Qed.
Lemma sat_mapM_len {E A B} (P : A -> B -> Prop) (Q : E -> Prop) pp pf (f : A -> res E B) l :
  (forall x, In x l -> sat (P x) Q pp pf (f x)) -> sat (fun ys => Forall2 P l ys) Q pp pf (mapM f l).
Proof.
  induction l as [|x l IH]; intros H; cbn; [constructor|].
  eapply sat_bind; [apply H; now left|]. intros y Hy.
  eapply sat_bind; [apply IH; intros; apply H; now right|]. cbn; intros ys Hys; now constructor.
Qed.

Theorem eval_rec_safe f : forall b c l, gentle b -> fine_ctx c -> safe (eval_rec f b c l).
Proof.
  induction f as [|f IH]; intros b c l Hb Hc; [exact I|]. cbn [eval_rec].
  pose proof (gentle_node b Hb) as Hn. pose proof (fun x => gentle_child b x Hb) as Hch.
  destruct b; cbn [children] in Hch.
  - cbn. constructor; [apply wf_scalar|constructor].
  - eapply (sat_bind (fun ls => List.length ls = List.length v)).
    + eapply sat_impl; [| | | |apply (sat_mapM_len (fun _ _ => True) (fun _ => True) False True)]; auto.
      { intros ls H. symmetry. eapply BaseFacts.Forall2_length; exact H. }
      intros x Hx. eapply sat_bind; [apply IH; auto|]. intros; apply scalars_safe.
    + intros ls Hls. cbn. apply Forall_forall. intros w Hw. apply in_map_iff in Hw as (t & <- & Ht). rewrite cart_prod_choices in Ht.
      apply choices_in in Ht. apply BaseFacts.Forall2_length in Ht. exists (KV (List.length t)). cbn. split; [|reflexivity].
      destruct v; [congruence|]. cbn in Hls. lia.
  - destruct Hn as (r & k & Hr & Hk & Hm1 & Hm2).
    eapply (sat_bind (fun ls => List.length ls = r /\ Forall (fun row => List.length row = k) ls)).
    + eapply sat_impl; [| | | |apply (sat_mapM_len (fun row (ls : list (list T)) => List.length ls = List.length row) (fun _ => True) False True)]; auto.
      { intros ls H. split; [apply BaseFacts.Forall2_length in H; congruence|]. clear -H Hm2.
        induction H; inversion Hm2; subst; constructor; auto; congruence. }
      intros row Hrow. eapply sat_impl; [| | | |apply (sat_mapM_len (fun _ _ => True) (fun _ => True) False True)]; auto.
      { intros ls H. symmetry. eapply BaseFacts.Forall2_length; exact H. }
      intros x Hx. eapply sat_bind; [apply IH; auto; apply Hch, in_concat; eauto|]. intros; apply scalars_safe.
    + intros ls (Hls1 & Hls2). cbn. apply Forall_forall. intros w Hw. apply in_map_iff in Hw as (t & <- & Ht). rewrite cart_prod_choices in Ht.
      apply choices_in in Ht. exists (KM r k). cbn. repeat split; auto.
      * apply BaseFacts.Forall2_length in Ht. rewrite map_length in Ht. congruence.
      * apply Forall_forall. intros row Hrow. apply In_nth_error in Hrow as (i & Hi).
        destruct (Forall2_nth _ _ _ _ _ Ht Hi) as (cp & Hcp & Hin).
        apply nth_error_In in Hcp. apply in_map_iff in Hcp as (fields & <- & Hfields).
        rewrite cart_prod_choices in Hin. apply choices_in in Hin. apply BaseFacts.Forall2_length in Hin.
        rewrite Forall_forall in Hls2. rewrite Hin. auto.
  - apply concatM_safe. intros x Hx. apply IH; auto.
  - unfold lookup_var. destruct (find _ _) eqn:Ef; [|exact I]. apply find_some in Ef as [Ef _]. cbn. apply Forall_forall. intros x. now apply (proj1 Hc).
  - destruct (str_eqb l name); [exact I|]. unfold lookup_fun. destruct (find _ _) as [fn|] eqn:Ef; [|exact I]. apply find_some in Ef as [Ef _].
    destruct (negb _); [exact I|].
    eapply (sat_bind (Forall (Forall well_formed))); [apply sat_mapM; intros; apply IH; auto|]. intros args Hargs.
    apply concatM_safe. intros p Hp. apply IH; [now apply (proj2 Hc)|]. apply fine_call; [exact Hc|].
    rewrite cart_prod_choices in Hp. apply choices_in in Hp. clear -Hp Hargs. induction Hp; inversion Hargs; subst; constructor; auto.
    rewrite Forall_forall in *. auto.
  - eapply (sat_bind (Forall well_formed)); [apply IH; auto; apply Hch; cbn; auto|]. intros lv Hlv.
    eapply (sat_bind (Forall well_formed)); [apply IH; auto; apply Hch; cbn; auto|]. intros rv Hrv.
    rewrite Forall_forall in Hlv, Hrv.
    apply concatM_safe. intros x Hx. apply concatM_safe. intros y Hy. apply mathe_op_safe; auto.
  - eapply (sat_bind (Forall well_formed)); [apply IH; auto; apply Hch; cbn; auto|]. intros lv Hlv.
    eapply (sat_bind (Forall well_formed)); [apply IH; auto; apply Hch; cbn; auto|]. intros rv Hrv.
    apply concatM_safe. intros x Hx. apply concatM_safe. intros y Hy. apply integral_safe; auto.
    apply Hch; cbn; auto.
  - eapply (sat_bind (Forall well_formed)); [apply IH; auto; apply Hch; cbn; auto|]. intros lv Hlv.
    apply concatM_safe. intros x Hx. apply derivative_safe; auto. apply Hch; cbn; auto.
  - contradiction.
Qed.
End EvalSafe.
