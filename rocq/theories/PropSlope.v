(** * PropSlope: C77 - derivatives of arithmetic expressions in binary64. *)
From Coq Require Import List NArith ZArith Bool String Arith Lia SpecFloat Reals Lra.
From Flocq Require Import Core IEEE754.BinarySingleNaN Relative.
From Verif Require Import Base BaseFacts F64 Num Types Maths Eval EvalFuel SpecEval EvalProofs PropEval CalcSpec SolveSpec SolveProofs
  FloatFacts DecimalFloat PropNumber PropSolve SolveFloat PropRounding PropFloat PropCalc Parser GrammarSpec ShapeSpec PropResults EstimateSpec SlopeSpec PropEstimate Toy.
Import ListNotations.
Local Open Scope list_scope.

Section Results.
Variable lm : Libm.
Local Instance NF : Num := F64 lm.
Context {En : Env}.
Notation value_of := (over_reals lm).

(** ** The exact value of an estimate *)
Lemma number_valuation (c : Ctx NF) a x : number_in lm c a x -> value_of (valuation lm c) a = fR x.
Proof.
  intros [y _|n v y Hl Hv _]; cbn [over_reals]; [reflexivity|]. unfold valuation. 
  transitivity (match Some v with Some v => match var_values v with [@Scalar _ x] => fR x | _ => 0%R end | None => 0%R end); [|now rewrite Hv].
  exact (f_equal (fun o : option (MVar NF) => match o with Some v => match var_values v with [@Scalar _ x] => fR x | _ => 0%R end | None => 0%R end) Hl).
Qed.
(** The [exact] part of an estimate is the value over the real numbers. *)
Theorem c75_exact (c : Ctx NF) a e : measured lm c a e -> exact e = value_of (valuation lm c) a.
Proof.
  induction 1 as [a x Hx|a b ea eb _ IHa _ IHb|a b ea eb _ IHa _ IHb|z b eb _ IHb|a b ea eb _ IHa _ IHb|a b ea eb _ IHa _ IHb
    |a b ea y _ IHa Hy Hn|a z ea _ IHa|a z ea _ IHa]; cbn [exact of_double est_add est_neg est_mult est_div est_abs with_peak over_reals].
  - symmetry. now apply number_valuation.
  - now rewrite IHa, IHb.
  - now rewrite IHa, IHb.
  - now rewrite IHb.
  - now rewrite IHa, IHb.
  - now rewrite IHa, IHb.
  - rewrite IHa. f_equal. symmetry. now apply number_valuation.
  - now rewrite IHa.
  - exact IHa.
Qed.

Lemma valuation_set (c : Ctx NF) x (s : f64) n : valuation lm (set_num c x s) n = with_value (valuation lm c) x (fR s) n.
Proof.
  unfold valuation, with_value. 
  transitivity (match (if str_eqb x n then Some (mkVar x [@Scalar NF s]) else lookup_var c n) with Some v => match var_values v with [@Scalar _ x] => fR x | _ => 0%R end | None => 0%R end);
   [exact (f_equal (fun o : option (MVar NF) => match o with Some v => match var_values v with [@Scalar _ x] => fR x | _ => 0%R end | None => 0%R end) (lookup_set_num lm c x s n))|].
  destruct (str_eqb x n); reflexivity.
Qed.
Lemma over_reals_ext rho rho' a : (forall n, rho n = rho' n) -> value_of rho a = value_of rho' a.
Proof.
  intros H. induction a; cbn [over_reals]; auto. match goal with o : SimpleOp |- _ => destruct o end; congruence.
Qed.

(** ** The difference quotient *)
Lemma step_pos : (0 < fR (@step_h NF En))%R.
Proof.
  assert (G : forall m e, (0 < fR (S754_finite false m e))%R).
  { intros m e. unfold fR. cbn [SF2R cond_Zopp]. apply F2R_gt_0. reflexivity. }
  assert (E13 : exists m e, @pow10 NF (-13) = S754_finite false m e) by (eexists; eexists; vm_compute; reflexivity).
  assert (E8 : exists m e, @pow10 NF (-8) = S754_finite false m e) by (eexists; eexists; vm_compute; reflexivity).
  unfold step_h, PREC. destruct high_prec; [destruct E13 as (m & e & E)|destruct E8 as (m & e & E)].
  - change (- (13))%Z with (-13)%Z. rewrite E. apply G.
  - change (- (8))%Z with (-8)%Z. rewrite E. apply G.
Qed.

(** [e] is a function of [x] over the real numbers. *)
Definition graph (c : Ctx NF) (x : str) (e : AST NF) (t : R) : R := value_of (with_value (valuation lm c) x t) e.

(** The derivative is one double; if it is finite, it is the difference
    quotient of the real function between the two points used, up to rounding. *)
Theorem c77_difference_quotient (c : Ctx NF) (e at_ : AST NF) x (s : f64) :
  arithmetic lm c [x] e -> outcome at_ c (Ok [@Scalar NF s]) -> double s -> double (fadd s (@step_h NF En)) ->
  exists e0 e1 (r : f64),
    measured lm (set_num c x s) e e0 /\ measured lm (set_num c x (fadd s (@step_h NF En))) e e1 /\
    outcome (ADer e x at_) c (Ok [@Scalar NF r]) /\ fvalid r = true /\
    (fis_finite r = true ->
      Rabs (fR r - (graph c x e (fR (fadd s (@step_h NF En))) - graph c x e (fR s)) / fR (@step_h NF En))
        <= error_bound (est_div (est_add e1 (est_neg e0)) (@step_h NF En)))%R.
Proof.
  intros Ha Hs Ds Ds'. set (h := @step_h NF En) in *.
  destruct (arithmetic_measured lm c [x] [s] e Ha eq_refl) as (e0 & H0); [now constructor|].
  destruct (arithmetic_measured lm c [x] [fadd s h] e Ha eq_refl) as (e1 & H1); [now constructor|].
  change (set_nums c [x] [s]) with (set_num c x s) in H0. change (set_nums c [x] [fadd s h]) with (set_num c x (fadd s h)) in H1.
  destruct (measured_value lm (set_num c x s) e e0 H0) as (y0 & O0 & W0). destruct (measured_value lm (set_num c x (fadd s h)) e e1 H1) as (y1 & O1 & W1).
  destruct (step_h_facts lm (En := En)) as (S1 & S2 & _). pose proof step_pos as HP. fold h in S1, S2, HP.
  assert (W : within (est_div (est_add e1 (est_neg e0)) h) (fdiv (fadd y1 (fopp y0)) h)).
  { apply within_div; [apply within_add; [exact W1|now apply within_neg]|exact S1|exact S2|lra]. }
  exists e0, e1, (fdiv (fadd y1 (fopp y0)) h). split; [exact H0|]. split; [exact H1|]. split.
  - pose proof (c31_scalar_function_ieee lm e at_ x s c y0 y1 (w_valid _ _ W0) Hs O0 O1) as Ho.
    change (fsub y1 y0) with (fsub y1 y0) in Ho. rewrite fsub_fadd_opp in Ho. exact Ho.
  - split; [apply W|]. intros F. pose proof (w_err _ _ W F) as E. cbn [exact est_div est_add est_neg with_peak] in E.
    rewrite (c75_exact _ _ _ H0), (c75_exact _ _ _ H1) in E. unfold graph.
    rewrite (over_reals_ext _ (with_value (valuation lm c) x (fR s)) e (valuation_set c x s)) in E.
    rewrite (over_reals_ext _ (with_value (valuation lm c) x (fR (fadd s h))) e (valuation_set c x (fadd s h))) in E. exact E.
Qed.

(** ** Tangents *)
Record bends (F : R -> R) (s g X : R) (p : bend) : Prop := mkBends {
  b_curve : (0 <= curve p)%R;
  b_slope : (Rabs g <= steep p)%R;
  b_size : forall t, (Rabs t <= X)%R -> (Rabs (F t) <= size p)%R;
  b_steep : forall t, (Rabs t <= X)%R -> (Rabs (F t - F s) <= steep p * Rabs (t - s))%R;
  b_tangent : forall t, (Rabs t <= X)%R -> (Rabs (F t - F s - g * (t - s)) <= curve p * (t - s) ^ 2)%R }.
Lemma b_steep0 F s g X p : bends F s g X p -> (0 <= steep p)%R.
Proof. intros H. pose proof (b_slope _ _ _ _ _ H). pose proof (Rabs_pos g). lra. Qed.
Lemma b_size0 F s g X p : (Rabs s <= X)%R -> bends F s g X p -> (0 <= size p)%R.
Proof. intros Hs H. pose proof (b_size _ _ _ _ _ H s Hs). pose proof (Rabs_pos (F s)). lra. Qed.

Lemma bends_const y s X : bends (fun _ => y) s 0 X (mkBend (Rabs y) 0 0).
Proof.
  split; cbn [size steep curve]; intros; rewrite ?Rabs_R0; try lra.
  - rewrite Rminus_diag_eq, Rabs_R0 by reflexivity. lra.
  - replace (y - y - 0 * (t - s))%R with 0%R by ring. rewrite Rabs_R0. lra.
Qed.
Lemma bends_id s X : bends (fun t => t) s 1 X (mkBend X 1 0).
Proof.
  split; cbn [size steep curve]; intros; rewrite ?Rabs_R1; try lra.
  replace (t - s - 1 * (t - s))%R with 0%R by ring. rewrite Rabs_R0. lra.
Qed.
Lemma bends_add F G s g g' X p q : bends F s g X p -> bends G s g' X q -> bends (fun t => (F t + G t)%R) s (g + g') X (bend_add p q).
Proof.
  intros [A1 A2 A3 A4 A5] [B1 B2 B3 B4 B5]. split; cbn [size steep curve bend_add].
  - lra.
  - pose proof (Rabs_triang g g'). lra.
  - intros t Ht. pose proof (Rabs_triang (F t) (G t)). specialize (A3 t Ht). specialize (B3 t Ht). lra.
  - intros t Ht. replace (F t + G t - (F s + G s))%R with ((F t - F s) + (G t - G s))%R by ring.
    pose proof (Rabs_triang (F t - F s) (G t - G s)). specialize (A4 t Ht). specialize (B4 t Ht). lra.
  - intros t Ht. replace (F t + G t - (F s + G s) - (g + g') * (t - s))%R with ((F t - F s - g * (t - s)) + (G t - G s - g' * (t - s)))%R by ring.
    pose proof (Rabs_triang (F t - F s - g * (t - s)) (G t - G s - g' * (t - s))). specialize (A5 t Ht). specialize (B5 t Ht). lra.
Qed.
Lemma bends_neg F s g X p : bends F s g X p -> bends (fun t => (- F t)%R) s (- g) X p.
Proof.
  intros [A1 A2 A3 A4 A5]. split; intros; rewrite ?Rabs_Ropp; auto.
  - replace (- F t - - F s)%R with (- (F t - F s))%R by ring. rewrite Rabs_Ropp. auto.
  - replace (- F t - - F s - - g * (t - s))%R with (- (F t - F s - g * (t - s)))%R by ring. rewrite Rabs_Ropp. auto.
Qed.
Lemma bends_mult F G s g g' X p q : (Rabs s <= X)%R -> bends F s g X p -> bends G s g' X q ->
  bends (fun t => (F t * G t)%R) s (F s * g' + g * G s) X (bend_mult p q).
Proof.
  intros Hs HF HG. pose proof (b_steep0 _ _ _ _ _ HF) as PF. pose proof (b_steep0 _ _ _ _ _ HG) as PG.
  pose proof (b_size0 _ _ _ _ _ Hs HF) as QF. pose proof (b_size0 _ _ _ _ _ Hs HG) as QG.
  destruct HF as [A1 A2 A3 A4 A5], HG as [B1 B2 B3 B4 B5]. pose proof (A3 s Hs) as As. pose proof (B3 s Hs) as Bs.
  split; cbn [size steep curve bend_mult].
  - pose proof (Rmult_le_pos _ _ QF B1). pose proof (Rmult_le_pos _ _ A1 QG). pose proof (Rmult_le_pos _ _ PF PG). lra.
  - eapply Rle_trans; [apply Rabs_triang|]. rewrite !Rabs_mult. apply Rplus_le_compat; apply Rmult_le_compat; auto using Rabs_pos.
  - intros t Ht. rewrite Rabs_mult. apply Rmult_le_compat; auto using Rabs_pos.
  - intros t Ht. replace (F t * G t - F s * G s)%R with (F t * (G t - G s) + (F t - F s) * G s)%R by ring.
    eapply Rle_trans; [apply Rabs_triang|]. rewrite !Rabs_mult.
    pose proof (Rmult_le_compat _ _ _ _ (Rabs_pos (F t)) (Rabs_pos (G t - G s)) (A3 t Ht) (B4 t Ht)) as U1.
    pose proof (Rmult_le_compat _ _ _ _ (Rabs_pos (F t - F s)) (Rabs_pos (G s)) (A4 t Ht) Bs) as U2. lra.
  - intros t Ht. set (d := (t - s)%R).
    replace (F t * G t - F s * G s - (F s * g' + g * G s) * d)%R
      with (F s * (G t - G s - g' * d) + (F t - F s - g * d) * G s + (F t - F s) * (G t - G s))%R by ring.
    eapply Rle_trans; [apply Rabs_triang|]. eapply Rle_trans; [apply Rplus_le_compat_r, Rabs_triang|]. rewrite !Rabs_mult.
    pose proof (Rmult_le_compat _ _ _ _ (Rabs_pos (F s)) (Rabs_pos (G t - G s - g' * d)) As (B5 t Ht)) as U1.
    pose proof (Rmult_le_compat _ _ _ _ (Rabs_pos (F t - F s - g * d)) (Rabs_pos (G s)) (A5 t Ht) Bs) as U2.
    pose proof (Rmult_le_compat _ _ _ _ (Rabs_pos (F t - F s)) (Rabs_pos (G t - G s)) (A4 t Ht) (B4 t Ht)) as U3.
    fold d in U1, U2, U3.
    assert (D : (Rabs d * Rabs d = d ^ 2)%R) by (rewrite <- Rabs_mult, Rabs_pos_eq; [ring|apply Rle_0_sqr]).
    replace (steep p * Rabs d * (steep q * Rabs d))%R with (steep p * steep q * (Rabs d * Rabs d))%R in U3 by ring. rewrite D in U3. lra.
Qed.
Lemma bends_div F s g X p y : y <> 0%R -> bends F s g X p -> bends (fun t => (F t / y)%R) s (g / y) X (bend_div p y).
Proof.
  intros Hy [A1 A2 A3 A4 A5]. assert (Q : (0 < / Rabs y)%R) by now apply Rinv_0_lt_compat, Rabs_pos_lt.
  assert (Hd : forall a, (Rabs (a / y) = Rabs a * / Rabs y)%R) by (intros a; unfold Rdiv; rewrite Rabs_mult; f_equal; apply Rabs_inv).
  split; cbn [size steep curve bend_div]; unfold Rdiv at 1.
  - apply Rmult_le_pos; lra.
  - fold (g / y)%R. rewrite Hd. apply Rmult_le_compat_r; lra.
  - intros t Ht. fold (F t / y)%R. rewrite Hd. apply Rmult_le_compat_r; [lra|auto].
  - intros t Ht. fold (F t / y)%R. replace (F t / y - F s / y)%R with ((F t - F s) / y)%R by (field; exact Hy). rewrite Hd.
    pose proof (Rmult_le_compat_r (/ Rabs y) _ _ ltac:(lra) (A4 t Ht)). unfold Rdiv. lra.
  - intros t Ht. fold (F t / y)%R. replace (F t / y - F s / y - g / y * (t - s))%R with ((F t - F s - g * (t - s)) / y)%R by (field; exact Hy). rewrite Hd.
    pose proof (Rmult_le_compat_r (/ Rabs y) _ _ ltac:(lra) (A5 t Ht)). unfold Rdiv. lra.
Qed.

Lemma bends_ext F G s g X p : (forall t, F t = G t) -> bends F s g X p -> bends G s g X p.
Proof. intros E [A1 A2 A3 A4 A5]. split; auto; intros t Ht; rewrite <- ?E; auto. Qed.

Lemma known_value (c : Ctx NF) x a y t : known lm c [x] a y -> value_of (with_value (valuation lm c) x t) a = fR y /\ value_of (valuation lm c) a = fR y.
Proof.
  intros [z _|n v z Hn Hl Hv Dz]; [split; reflexivity|].
  assert (E : value_of (valuation lm c) (AVar n : AST NF) = fR z) by (apply number_valuation; now apply (NI_variable lm c n v z)).
  split; [|exact E]. cbn [over_reals] in *. unfold with_value. destruct (str_eqb x n) eqn:B; [|exact E].
  apply str_eqb_eq in B. exfalso. apply Hn. now left.
Qed.
Lemma polynomial_bends (c : Ctx NF) x e s : polynomial lm c x e ->
  exists g, forall X, (Rabs s <= X)%R -> bends (graph c x e) s g X (bend_of lm (valuation lm c) x X e).
Proof.
  intros H. induction H as [|a y Hk|a b _ (g & Ha) _ (g' & Hb)|a b _ (g & Ha) _ (g' & Hb)|z b _ (g & Hb)|a b _ (g & Ha) _ (g' & Hb)
     |a b _ (g & Ha) _ (g' & Hb)|a b y _ (g & Ha) Hk Hy|a z _ (g & Ha)]; unfold graph in *.
  - exists 1%R. intros X Hs. cbn [over_reals bend_of]. rewrite (proj2 (str_eqb_eq x x) eq_refl). eapply bends_ext; [|apply bends_id].
    intros t. unfold with_value. now rewrite (proj2 (str_eqb_eq x x) eq_refl).
  - exists 0%R. intros X Hs. eapply bends_ext; [intros t; symmetry; apply (known_value c x a y t Hk)|].
    assert (E : bend_of lm (valuation lm c) x X a = mkBend (Rabs (fR y)) 0 0).
    { pose proof (proj2 (known_value c x a y 0 Hk)) as V. destruct Hk as [z _|n v z Hn _ _ _]; [reflexivity|]. cbn [bend_of over_reals] in *.
      destruct (str_eqb x n) eqn:B; [|now rewrite V]. apply str_eqb_eq in B. exfalso. apply Hn. now left. }
    rewrite E. apply bends_const.
  - exists (g + g')%R. intros X Hs. exact (bends_add _ _ _ _ _ _ _ _ (Ha X Hs) (Hb X Hs)).
  - exists (g + - g')%R. intros X Hs. exact (bends_add _ _ _ _ _ _ _ _ (Ha X Hs) (bends_neg _ _ _ _ _ (Hb X Hs))).
  - exists (- g)%R. intros X Hs. exact (bends_neg _ _ _ _ _ (Hb X Hs)).
  - eexists. intros X Hs. exact (bends_mult _ _ _ _ _ _ _ _ Hs (Ha X Hs) (Hb X Hs)).
  - eexists. intros X Hs. exact (bends_mult _ _ _ _ _ _ _ _ Hs (Ha X Hs) (Hb X Hs)).
  - exists (g / fR y)%R. intros X Hs. cbn [over_reals bend_of]. rewrite (proj2 (known_value c x b y 0 Hk)).
    eapply bends_ext; [|exact (bends_div _ _ _ _ _ _ Hy (Ha X Hs))]. intros t. cbn beta. now rewrite (proj1 (known_value c x b y t Hk)).
  - exists g. intros X Hs. exact (Ha X Hs).
Qed.

(** Polynomial expressions are differentiable everywhere ... *)
Lemma tangent_limit F s g X p : (Rabs s < X)%R -> bends F s g X p -> derivable_pt_lim F s g.
Proof.
  intros Hs H eps He. pose proof (b_curve _ _ _ _ _ H) as C. set (K := (curve p + 1)%R).
  assert (D0 : (0 < Rmin (X - Rabs s) (eps / K))%R).
  { apply Rmin_glb_lt; [lra|]. apply Rdiv_lt_0_compat; unfold K; lra. }
  exists (mkposreal _ D0). cbn [pos]. intros h Hh Hlt. 
  assert (H1 : (Rabs h < X - Rabs s)%R) by (eapply Rlt_le_trans; [exact Hlt|apply Rmin_l]).
  assert (H2 : (Rabs h < eps / K)%R) by (eapply Rlt_le_trans; [exact Hlt|apply Rmin_r]).
  assert (Ht : (Rabs (s + h) <= X)%R) by (pose proof (Rabs_triang s h); lra).
  pose proof (b_tangent _ _ _ _ _ H (s + h)%R Ht) as T. replace (s + h - s)%R with h in T by ring.
  replace ((F (s + h) - F s) / h - g)%R with ((F (s + h) - F s - g * h) / h)%R by (field; exact Hh).
  unfold Rdiv. rewrite Rabs_mult, Rabs_inv. pose proof (Rabs_pos_lt h Hh) as P.
  apply (Rmult_lt_reg_r (Rabs h)); [exact P|]. rewrite Rmult_assoc, Rinv_l, Rmult_1_r by lra.
  eapply Rle_lt_trans; [exact T|].
  assert (D : (h ^ 2 = Rabs h * Rabs h)%R) by (rewrite <- Rabs_mult, Rabs_pos_eq; [ring|apply Rle_0_sqr]). rewrite D.
  assert (E : (K * Rabs h < eps)%R).
  { apply (Rmult_lt_compat_l K) in H2; [|unfold K; lra]. replace (K * (eps / K))%R with eps in H2 by (field; unfold K; lra). exact H2. }
  rewrite <- Rmult_assoc. apply Rmult_lt_compat_r; [exact P|]. unfold K in E. lra.
Qed.
Theorem c77_differentiable (c : Ctx NF) x e s : polynomial lm c x e -> exists g, derivable_pt_lim (graph c x e) s g.
Proof.
  intros H. destruct (polynomial_bends c x e s H) as (g & B). exists g. eapply tangent_limit; [|apply (B (Rabs s + 1)%R)]; lra.
Qed.
Lemma derivative_bends (c : Ctx NF) x e s g X : polynomial lm c x e -> (Rabs s <= X)%R -> derivable_pt_lim (graph c x e) s g ->
  bends (graph c x e) s g X (bend_of lm (valuation lm c) x X e).
Proof.
  intros H Hs Hg. destruct (polynomial_bends c x e s H) as (g' & B).
  assert (L : derivable_pt_lim (graph c x e) s g') by (eapply tangent_limit; [|apply (B (Rabs s + 1)%R)]; lra).
  rewrite (uniqueness_limite _ _ _ _ Hg L). now apply B.
Qed.

Lemma polynomial_arithmetic (c : Ctx NF) x e : polynomial lm c x e -> arithmetic lm c [x] e.
Proof. induction 1; [apply A_unknown; now left|econstructor; eassumption..]. Qed.

(** The distance of the computed derivative of a polynomial expression to its
    real derivative [g]: rounding, divided by h; the second point s' is not
    exactly s+h; and the graph bends. *)
Theorem c77_derivative (c : Ctx NF) (e at_ : AST NF) x (s : f64) g :
  polynomial lm c x e -> outcome at_ c (Ok [@Scalar NF s]) -> double s ->
  let h := @step_h NF En in let s' := fadd s h in
  double s' -> derivable_pt_lim (graph c x e) (fR s) g ->
  let K := curve (bend_of lm (valuation lm c) x (Rmax (Rabs (fR s)) (Rabs (fR s'))) e) in
  exists e0 e1 (r : f64),
    measured lm (set_num c x s) e e0 /\ measured lm (set_num c x s') e e1 /\
    outcome (ADer e x at_) c (Ok [@Scalar NF r]) /\ fvalid r = true /\
    (fis_finite r = true ->
      Rabs (fR r - g) <= error_bound (est_div (est_add e1 (est_neg e0)) h)
        + (Rabs g * (ur * Rabs (fR s + fR h)) + K * (fR h + ur * Rabs (fR s + fR h)) ^ 2) / fR h)%R.
Proof.
  intros Hp Hs Ds h s' Ds' Hg K. destruct (c77_difference_quotient c e at_ x s (polynomial_arithmetic _ _ _ Hp) Hs Ds Ds') as (e0 & e1 & r & H0 & H1 & Ho & V & B).
  exists e0, e1, r. split; [exact H0|]. split; [exact H1|]. split; [exact Ho|]. split; [exact V|]. intros F. specialize (B F). fold h in B. fold s' in B.
  set (X := Rmax (Rabs (fR s)) (Rabs (fR s'))) in *.
  pose proof (derivative_bends c x e (fR s) g X Hp (Rmax_l _ _) Hg) as BD. pose proof (b_tangent _ _ _ _ _ BD (fR s') (Rmax_r _ _)) as T. fold K in T.
  pose proof (b_curve _ _ _ _ _ BD) as K0. fold K in K0.
  destruct (step_h_facts lm (En := En)) as (S1 & S2 & _). pose proof step_pos as HP. fold h in S1, S2, HP.
  pose proof (add_error s h (proj1 Ds) S1 (proj2 Ds) S2 (proj2 Ds')) as A. fold s' in A. rewrite <- ur_u in A. set (d := (ur * Rabs (fR s + fR h))%R) in *.
  set (w := (fR s' - fR s)%R) in *. set (D := (graph c x e (fR s') - graph c x e (fR s))%R) in *.
  assert (A' : (Rabs (w - fR h) <= d)%R) by (unfold w; replace (fR s' - fR s - fR h)%R with (fR s' - (fR s + fR h))%R by ring; exact A).
  assert (W : (Rabs w <= fR h + d)%R).
  { pose proof (Rabs_triang (w - fR h) (fR h)) as Q. replace (w - fR h + fR h)%R with w in Q by ring. rewrite (Rabs_pos_eq (fR h)) in Q by lra. lra. }
  assert (W2 : (w ^ 2 <= (fR h + d) ^ 2)%R).
  { rewrite <- (pow2_abs w). apply pow_incr. split; [apply Rabs_pos|exact W]. }
  assert (E : (Rabs (D / fR h - g) <= (Rabs g * d + K * (fR h + d) ^ 2) / fR h)%R).
  { replace (D / fR h - g)%R with ((D - g * w + g * (w - fR h)) / fR h)%R by (field; lra). unfold Rdiv. rewrite Rabs_mult, Rabs_inv, (Rabs_pos_eq (fR h)) by lra.
    apply Rmult_le_compat_r; [left; now apply Rinv_0_lt_compat|]. eapply Rle_trans; [apply Rabs_triang|]. rewrite Rabs_mult.
    pose proof (Rmult_le_compat_l (Rabs g) _ _ (Rabs_pos g) A'). pose proof (Rmult_le_compat_l K _ _ K0 W2). lra. }
  replace (fR r - g)%R with ((fR r - D / fR h) + (D / fR h - g))%R by ring. eapply Rle_trans; [apply Rabs_triang|]. lra.
Qed.

(** C76 in terms of the real functions. *)
Theorem c76_over_reals (c : Ctx NF) t (eqs : list (AST NF * AST NF)) sv vs v : returns_doubles lm ->
  session lm c -> parse t = Ok (AEq eqs sv) -> names_unknowns lm (AEq eqs sv) ->
  (forall l r, In (l, r) eqs -> arithmetic lm c sv l /\ arithmetic lm c sv r) ->
  outcome (AEq eqs sv) c (Ok vs) -> In v vs ->
  exists xs : list f64, v = @as_solution NF xs /\ List.length xs = List.length sv /\ Forall double xs /\
    forall l r, In (l, r) eqs -> exists el er, measured lm (set_nums c sv xs) l el /\ measured lm (set_nums c sv xs) r er /\
      (Rabs (value_of (valuation lm (set_nums c sv xs)) l - value_of (valuation lm (set_nums c sv xs)) r)
        <= (1 + / 2 ^ 50) / 10 ^ Z.to_nat PREC + error_bound (est_add el (est_neg er)))%R.
Proof.
  intros Hlm Hs Hp Hn Ha Ho Hv. destruct (c76_real_equations lm Hlm c t eqs sv vs v Hs Hp Hn Ha Ho Hv) as (xs & E & Hl & Hd & H).
  exists xs. split; [exact E|]. split; [exact Hl|]. split; [exact Hd|]. intros l r Hin. destruct (H l r Hin) as (el & er & H1 & H2 & B).
  exists el, er. split; [exact H1|]. split; [exact H2|]. rewrite (c75_exact _ _ _ H1), (c75_exact _ _ _ H2) in B. exact B.
Qed.
End Results.

Module Examples.
Local Existing Instance NT.
Local Existing Instance ET.
(** D(x*x, x, 3): the hypotheses, and the bound around the real derivative 6. *)
Definition X : str := lit "x".
Definition square : AST NT := AOp OMult (AVar X) (AVar X).
Definition ctx0 : Ctx NT := mkCtx [] [].
Example square_text : parse (lit "D(x*x,x,3)") = Ok (ADer square X (AScalar (num 3))). Proof. reflexivity. Qed.
Example square_poly : polynomial toy ctx0 X square.
Proof. apply P_mult; apply P_x. Qed.
Example square_slope : derivable_pt_lim (graph toy ctx0 X square) 3%R 6%R.
Proof.
  change (derivable_pt_lim (fun t => t * t)%R 3%R 6%R). replace 6%R with (1 * 3 + 3 * 1)%R by ring.
  apply (derivable_pt_lim_mult (fun t => t) (fun t => t)); apply derivable_pt_lim_id.
Qed.
Lemma three : fR (num 3) = 3%R.
Proof. unfold fR, num. replace (@nof_Z NT 3) with (S754_finite false 6755399441055744 (-51)) by (vm_compute; reflexivity). unfold SF2R, F2R. cbn. lra. Qed.
Lemma square_curve rho Y : curve (bend_of toy rho X Y square) = 1%R.
Proof. cbn. ring. Qed.
Example square_close : exists e0 e1 (r : f64),
  measured toy (set_num ctx0 X (num 3)) square e0 /\ measured toy (set_num ctx0 X (fadd (num 3) step_h)) square e1 /\
  outcome (ADer square X (AScalar (num 3))) ctx0 (Ok [@Scalar NT r]) /\ fvalid r = true /\
  (fis_finite r = true -> Rabs (fR r - 6) <= error_bound (est_div (est_add e1 (est_neg e0)) step_h)
     + (Rabs 6 * (ur * Rabs (fR (num 3) + fR step_h)) + 1 * (fR step_h + ur * Rabs (fR (num 3) + fR step_h)) ^ 2) / fR step_h)%R.
Proof.
  rewrite <- (square_curve (valuation toy ctx0) (Rmax (Rabs (fR (num 3))) (Rabs (fR (fadd (num 3) (@step_h NT ET)))))).
  refine (c77_derivative toy ctx0 square (AScalar (num 3)) X (num 3) 6%R square_poly _ _ _ _).
  - apply scalar_outcome.
  - split; reflexivity.
  - split; vm_compute; reflexivity.
  - rewrite three. exact square_slope.
Qed.
End Examples.
