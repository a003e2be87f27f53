(** * PropPropagate: C80 - errors propagate by the rules of PropagateSpec. *)
From Coq Require Import List NArith ZArith Bool String Arith Lia SpecFloat Reals Lra.
From Flocq Require Import Core IEEE754.BinarySingleNaN Relative.
From Verif Require Import Base BaseFacts F64 Num Types Maths Eval EvalFuel SpecEval EvalProofs PropEval GrammarSpec ShapeSpec MathsForms
  FloatFacts DecimalFloat PropNumber SolveFloat PropRounding PropFloat EstimateSpec PropEstimate PropConstants PropagateSpec Toy Parser.
Import ListNotations.
Local Open Scope list_scope.

(** ** One rounding *)
Lemma RN_error v : (Rabs (RN v - v) <= unit_roundoff * Rabs v + tiny)%R.
Proof.
  destruct (relative_error_N_FLT'_ex radix2 (3 - emax64 - prec64) prec64 ltac:(reflexivity) (fun x => negb (Z.even x)) v) as (d & e & Hd & He & _ & G).
  rewrite u_ro_u in Hd. assert (R : RN v = (v * (1 + d) + e)%R) by exact G. rewrite R. replace (v * (1 + d) + e - v)%R with (d * v + e)%R by ring.
  eapply Rle_trans; [apply Rabs_triang|]. rewrite Rabs_mult. apply Rplus_le_compat.
  - apply Rmult_le_compat_r; [apply Rabs_pos|]. pose proof u_small. change unit_roundoff with u. lra.
  - eapply Rle_trans; [exact He|]. right. unfold tiny. change (3 - emax64 - prec64)%Z with (Z.opp 1074). rewrite bpow_opp, <- (IZR_Zpower radix2 1074) by lia.
    change (IZR (radix2 ^ 1074)) with (IZR (2 ^ 1074)). rewrite (pow_IZR 2 1075).
    replace (2 ^ Z.of_nat 1075)%Z with (2 * 2 ^ 1074)%Z by (change (Z.of_nat 1075) with (Z.succ 1074); now rewrite Z.pow_succ_r by lia).
    rewrite mult_IZR, Rinv_mult. reflexivity.
Qed.
Definition rounds (w : R) (z : f64) : Prop := (Rabs (RN w) < bpow radix2 emax64)%R -> fis_finite z = true /\ fR z = RN w.
Lemma agrees_rounding v d t w z : fvalid z = true -> ((t < overflow_threshold)%R -> (Rabs (w - v) <= d)%R /\ rounds w z) -> agrees (rounding v d t) z.
Proof.
  intros V H. split; [exact V|]. cbn [top value error rounding]. intros Ht.
  pose proof (Rmax_l t (Rabs v + d)). pose proof (Rmax_r t (Rabs v + d)). destruct H as [Hd Hr]; [lra|].
  assert (B : (Rabs w <= Rabs v + d)%R). { pose proof (Rabs_triang (w - v) v) as T. replace (w - v + v)%R with w in T by ring. lra. }
  destruct Hr as [F E]; [apply RN_small; lra|]. split; [exact F|]. rewrite E.
  replace (RN w - v)%R with ((RN w - w) + (w - v))%R by ring. eapply Rle_trans; [apply Rabs_triang|].
  pose proof (RN_error w). pose proof (Rmult_le_compat_l unit_roundoff _ _ ltac:(pose proof ur_pos; lra) B). lra.
Qed.
Lemma agrees_valid q x : agrees q x -> fvalid x = true. Proof. now intros []. Qed.
Lemma both_top p q : (Rmax (top p) (top q) < overflow_threshold)%R -> (top p < overflow_threshold /\ top q < overflow_threshold)%R.
Proof. intros H. pose proof (Rmax_l (top p) (top q)). pose proof (Rmax_r (top p) (top q)). lra. Qed.

Lemma rounds_add x y : fvalid x = true -> fvalid y = true -> fis_finite x = true -> fis_finite y = true -> rounds (fR x + fR y) (fadd x y).
Proof. intros Vx Vy Fx Fy L. pose proof (fadd_spec x y Vx Vy Fx Fy) as H. cbv zeta in H. now rewrite Rlt_bool_true in H. Qed.
Lemma rounds_mul x y : fvalid x = true -> fvalid y = true -> fis_finite x = true -> fis_finite y = true -> rounds (fR x * fR y) (fmul x y).
Proof. intros Vx Vy Fx Fy L. pose proof (fmul_spec x y Vx Vy Fx Fy) as H. cbv zeta in H. now rewrite Rlt_bool_true in H. Qed.
Lemma rounds_div x y : fvalid x = true -> fvalid y = true -> fis_finite x = true -> fR y <> 0%R -> rounds (fR x / fR y) (fdiv x y).
Proof. intros Vx Vy Fx Fy L. pose proof (fdiv_spec x y Vx Vy Fx Fy) as H. cbv zeta in H. now rewrite Rlt_bool_true in H. Qed.
Lemma rounds_sqrt x : fvalid x = true -> fis_finite x = true -> (0 <= fR x)%R -> rounds (R_sqrt.sqrt (fR x)) (fsqrt x).
Proof. intros Vx Fx P _. now apply fsqrt_spec. Qed.

(** ** Operations on quantities *)
Lemma agrees_exactly x : double x -> agrees (exactly x) x.
Proof. intros [V F]. split; [exact V|]. intros _. split; [exact F|]. cbn. rewrite Rminus_diag_eq, Rabs_R0 by reflexivity. lra. Qed.
Lemma agrees_add p q x y : agrees p x -> agrees q y -> agrees (q_add p q) (fadd x y).
Proof.
  intros [Vx Hx] [Vy Hy]. apply agrees_rounding with (fR x + fR y)%R; [now apply fadd_valid|]. intros Ht. apply both_top in Ht as [T1 T2].
  destruct (Hx T1) as [Fx Ex], (Hy T2) as [Fy Ey]. split; [|now apply rounds_add].
  replace (fR x + fR y - (value p + value q))%R with ((fR x - value p) + (fR y - value q))%R by ring. eapply Rle_trans; [apply Rabs_triang|]. lra.
Qed.
Lemma agrees_neg p x : agrees p x -> agrees (q_neg p) (fopp x).
Proof.
  intros [V H]. split; [now apply fopp_valid|]. cbn [top value error q_neg]. intros T. destruct (H T) as [F E]. split; [now destruct x|].
  rewrite fopp_R. replace (- fR x - - value p)%R with (- (fR x - value p))%R by ring. now rewrite Rabs_Ropp.
Qed.
Lemma agrees_sub p q x y : agrees p x -> agrees q y -> agrees (q_sub p q) (fsub x y).
Proof. intros Hx Hy. rewrite fsub_fadd_opp. apply agrees_add; [exact Hx|now apply agrees_neg]. Qed.
Lemma agrees_mult p q x y : agrees p x -> agrees q y -> agrees (q_mult p q) (fmul x y).
Proof.
  intros [Vx Hx] [Vy Hy]. apply agrees_rounding with (fR x * fR y)%R; [now apply fmul_valid|]. intros Ht. apply both_top in Ht as [T1 T2].
  destruct (Hx T1) as [Fx Ex], (Hy T2) as [Fy Ey]. split; [|now apply rounds_mul].
  replace (fR x * fR y - value p * value q)%R with ((fR x - value p) * value q + (fR y - value q) * value p + (fR x - value p) * (fR y - value q))%R by ring.
  eapply Rle_trans; [apply Rabs_triang|]. pose proof (Rabs_triang ((fR x - value p) * value q) ((fR y - value q) * value p)) as T. rewrite !Rabs_mult in *.
  pose proof (Rmult_le_compat_r _ _ _ (Rabs_pos (value q)) Ex). pose proof (Rmult_le_compat_r _ _ _ (Rabs_pos (value p)) Ey).
  pose proof (Rmult_le_compat _ _ _ _ (Rabs_pos (fR x - value p)) (Rabs_pos (fR y - value q)) Ex Ey). lra.
Qed.
Lemma agrees_div p q x y : away_from_0 q -> agrees p x -> agrees q y -> agrees (q_div p q) (fdiv x y).
Proof.
  intros Hq [Vx Hx] [Vy Hy]. apply agrees_rounding with (fR x / fR y)%R; [now apply fdiv_valid|]. intros Ht. apply both_top in Ht as [T1 T2].
  destruct (Hx T1) as [Fx Ex], (Hy T2) as [Fy Ey]. unfold away_from_0 in Hq.
  assert (Pe : (0 <= error q)%R) by (pose proof (Rabs_pos (fR y - value q)); lra).
  assert (Y : (Rabs (value q) - error q <= Rabs (fR y))%R).
  { pose proof (Rabs_triang (value q - fR y) (fR y)) as T. replace (value q - fR y + fR y)%R with (value q) in T by ring. rewrite Rabs_minus_sym in T. lra. }
  assert (Ny : fR y <> 0%R) by (intros E; rewrite E, Rabs_R0 in Y; lra). assert (Nq : value q <> 0%R) by (intros E; rewrite E, Rabs_R0 in Hq; lra).
  split; [|now apply rounds_div].
  replace (fR x / fR y - value p / value q)%R with (((fR x - value p) * value q - (fR y - value q) * value p) / (value q * fR y))%R by (field; auto).
  unfold Rdiv. rewrite Rabs_mult, Rabs_inv, Rabs_mult. apply Rmult_le_compat; [apply Rabs_pos| | |].
  - left. apply Rinv_0_lt_compat. apply Rmult_lt_0_compat; now apply Rabs_pos_lt.
  - unfold Rminus at 1. eapply Rle_trans; [apply Rabs_triang|]. rewrite Rabs_Ropp, !Rabs_mult.
    pose proof (Rmult_le_compat_r _ _ _ (Rabs_pos (value q)) Ex). pose proof (Rmult_le_compat_r _ _ _ (Rabs_pos (value p)) Ey). lra.
  - apply Rinv_le_contravar; [apply Rmult_lt_0_compat; lra|]. apply Rmult_le_compat_l; [apply Rabs_pos|exact Y].
Qed.
Lemma agrees_sqrt p x : positive p -> agrees p x -> agrees (q_sqrt p) (fsqrt x).
Proof.
  intros [P1 P2] [V H]. apply agrees_rounding with (R_sqrt.sqrt (fR x)); [now apply fsqrt_valid|]. intros T. destruct (H T) as [F E].
  assert (X : (0 <= fR x)%R). { pose proof (Rabs_def2 (fR x - value p) (error p + 1) ltac:(lra)). apply Rnot_lt_le. intros C. rewrite Rabs_left in E by lra. lra. }
  split; [|now apply rounds_sqrt].
  pose proof (sqrt_lt_R0 _ P1) as S. pose proof (sqrt_pos (fR x)) as S2.
  assert (Eq : ((R_sqrt.sqrt (fR x) - R_sqrt.sqrt (value p)) * (R_sqrt.sqrt (fR x) + R_sqrt.sqrt (value p)) = fR x - value p)%R).
  { replace (fR x) with (R_sqrt.sqrt (fR x) * R_sqrt.sqrt (fR x))%R at 3 by (now apply sqrt_sqrt).
    replace (value p) with (R_sqrt.sqrt (value p) * R_sqrt.sqrt (value p))%R at 3 by (apply sqrt_sqrt; lra). ring. }
  apply Rmult_le_reg_r with (R_sqrt.sqrt (value p)); [exact S|]. unfold Rdiv. rewrite Rmult_assoc, Rinv_l, Rmult_1_r by lra.
  apply Rle_trans with (Rabs (R_sqrt.sqrt (fR x) - R_sqrt.sqrt (value p)) * (R_sqrt.sqrt (fR x) + R_sqrt.sqrt (value p)))%R.
  - apply Rmult_le_compat_l; [apply Rabs_pos|lra].
  - rewrite <- (Rabs_pos_eq (R_sqrt.sqrt (fR x) + R_sqrt.sqrt (value p))) by lra. rewrite <- Rabs_mult, Eq. exact E.
Qed.
Lemma agrees_abs p x : agrees p x -> agrees (q_abs p) (fabs' x).
Proof.
  intros [V H]. assert (V' : fvalid (fabs' x) = true).
  { unfold fabs'. destruct (fltb x f0); [|exact V]. apply fmul_valid; [exact V|apply fm1_valid]. }
  split; [exact V'|]. cbn [top value error q_abs]. intros T. destruct (H T) as [F E].
  assert (G : fis_finite (fabs' x) = true /\ fR (fabs' x) = Rabs (fR x)).
  { unfold fabs'. pose proof (fltb_spec x f0 V f0_valid F eq_refl) as L. rewrite fR_f0 in L. destruct (fltb x f0).
    - rewrite fmul_m1 by exact V. split; [now destruct x|]. rewrite fopp_R. symmetry. apply Rabs_left. now apply L.
    - split; [exact F|]. symmetry. apply Rabs_pos_eq. apply Rnot_lt_le. intros G. apply L in G. discriminate. }
  destruct G as [G1 G2]. split; [exact G1|]. rewrite G2. eapply Rle_trans; [apply Rabs_triang_inv2|exact E].
Qed.
Lemma agrees_wider q q' x : wider q q' -> agrees q x -> agrees q' x.
Proof.
  intros [W1 W2] [V H]. split; [exact V|]. intros T. destruct H as [F E]; [lra|]. split; [exact F|].
  replace (fR x - value q')%R with ((fR x - value q) + (value q - value q'))%R by ring. eapply Rle_trans; [apply Rabs_triang|]. lra.
Qed.
Lemma double_f0 : double f0. Proof. split; reflexivity. Qed.
Lemma fR_f1 : fR f1 = 1%R.
Proof. assert (E : f1 = S754_finite false 4503599627370496 (-52)) by (vm_compute; reflexivity). rewrite E. unfold fR, SF2R, F2R. cbn. lra. Qed.
Lemma double_f1 : double f1. Proof. split; reflexivity. Qed.

Section Shapes.
Variable lm : Libm.
Local Instance NF : Num := F64 lm.
Context {En : Env}.

Lemma nsum_S n (f : nat -> f64) : @nsum NF (S n) f = fadd (@nsum NF n f) (f n).
Proof. unfold nsum. now rewrite seq_S, fold_left_app. Qed.
Lemma agrees_sum n p (f : nat -> f64) : (forall k, k < n -> agrees (p k) (f k)) -> agrees (q_sum n p) (@nsum NF n f).
Proof.
  induction n as [|n IH]; intros H; [exact (agrees_exactly _ double_f0)|]. rewrite nsum_S. cbn [q_sum]. apply agrees_add; [apply IH; intros; apply H; lia|apply H; lia].
Qed.
Lemma agrees_times_1 q x : agrees q x -> agrees q (fmul f1 x).
Proof.
  intros [V H]. split; [apply fmul_valid; [reflexivity|exact V]|]. intros T. destruct (H T) as [F E].
  pose proof (rounds_mul f1 x eq_refl V eq_refl F) as R. replace (fR f1 * fR x)%R with (fR x) in R by (rewrite fR_f1; ring).
  unfold rounds in R. rewrite RN_id in R by exact V. destruct R as [R1 R2]; [now apply fR_lt_emax|]. split; [exact R1|]. now rewrite R2.
Qed.
Lemma agrees_square q x : agrees q x -> agrees (q_mult q q) (@npowi NF x 2).
Proof. intros H. change (@npowi NF x 2) with (fmul f1 (fmul x x)). apply agrees_times_1. now apply agrees_mult. Qed.
(** Powers of -1. *)
Lemma powi_f1 p : forall r : f64, (r = f1 \/ r = fm1) -> @powi_pos NF f1 p r = r.
Proof.
  induction p as [p IH|p IH|]; intros r Hr; cbn [powi_pos].
  - change (@nmul NF f1 f1) with f1. assert (E : @nmul NF r f1 = r) by (destruct Hr as [-> | ->]; reflexivity). rewrite E. now apply IH.
  - change (@nmul NF f1 f1) with f1. now apply IH.
  - destruct Hr as [-> | ->]; reflexivity.
Qed.
Lemma sign_power k : @npowi NF (@nm1 NF) (Z.of_nat k) = if Nat.even k then f1 else fm1.
Proof.
  destruct k as [|k]; [reflexivity|]. assert (E : Nat.even (S k) = Z.even (Z.of_nat (S k))).
  { rewrite <- Z.negb_odd, <- Nat.negb_odd. f_equal. apply eq_true_iff_eq. rewrite Nat.odd_spec, Z.odd_spec. split; intros (m & Hm); [exists (Z.of_nat m)|exists (Z.to_nat m)]; lia. }
  rewrite E. cbn [Z.of_nat npowi]. set (p := Pos.of_succ_nat k). destruct p as [p|p|].
  - cbn [powi_pos Z.even]. change (@nmul NF (@nm1 NF) (@nm1 NF)) with f1. change (@nmul NF (@n1 NF) (@nm1 NF)) with fm1. apply powi_f1. now right.
  - cbn [powi_pos Z.even]. change (@nmul NF (@nm1 NF) (@nm1 NF)) with f1. change (@n1 NF) with f1. apply powi_f1. now left.
  - reflexivity.
Qed.
Lemma agrees_sign k : agrees (q_sign k) (@npowi NF (@nm1 NF) (Z.of_nat k)).
Proof.
  rewrite sign_power. unfold q_sign. destruct (Nat.even k).
  - replace (mkQ 1 0 0) with (exactly f1) by (unfold exactly; f_equal; exact fR_f1). apply agrees_exactly, double_f1.
  - replace (mkQ (-1) 0 0) with (exactly fm1) by (unfold exactly; f_equal; exact fm1_R). apply agrees_exactly. split; reflexivity.
Qed.
Lemma agrees_det n : forall p (a : nat -> nat -> f64), (forall i j, i < n -> j < n -> agrees (p i j) (a i j)) -> agrees (q_det n p) (@laplace NF n a).
Proof.
  induction n as [|n IH]; intros p a H; [exact (agrees_exactly _ double_f0)|]. cbn [q_det laplace]. destruct n as [|[|n]].
  - apply H; lia.
  - apply agrees_sub; apply agrees_mult; apply H; lia.
  - apply agrees_sum. intros k Hk. apply agrees_mult; [apply agrees_mult; [apply agrees_sign|apply H; lia]|]. apply IH.
    intros i j Hi Hj. apply H; [lia|]. unfold MathsForms.skip. destruct (Nat.ltb_spec j k); lia.
Qed.

(** ** Values *)
Notation av := (agrees_value lm).
Lemma av_vector n p (f : nat -> f64) : (forall i, i < n -> agrees (p i) (f i)) -> av (QV n p) (@Vector NF (tab n f)).
Proof. intros H. cbn. split; [apply tab_length|]. intros i Hi. rewrite tab_nth by exact Hi. now apply H. Qed.
Lemma av_matrix r c p (f : nat -> nat -> f64) : (forall i j, i < r -> j < c -> agrees (p i j) (f i j)) -> av (QM r c p) (@Matrix NF (tab2 r c f)).
Proof.
  intros H. cbn. unfold tab2. split; [apply tab_length|]. split; intros i; [intros Hi; rewrite tab_nth by exact Hi; apply tab_length|].
  intros j Hi Hj. rewrite tab_nth by exact Hi. rewrite tab_nth by exact Hj. now apply H.
Qed.
Lemma av_shape r c p (m : list (list f64)) : av (QM r c p) (@Matrix NF m) -> shape m r c /\ forall i j, i < r -> j < c -> agrees (p i j) (@ent NF m i j).
Proof.
  intros (H1 & H2 & H3). split; [|exact H3]. split; [exact H1|]. apply Forall_forall. intros l Hl. apply In_nth with (d := []) in Hl as (i & Hi & <-).
  apply H2. rewrite <- H1. exact Hi.
Qed.
Lemma one_result op (x y z : Value NF) : op_meaning op x y = Ok [z] -> forall l a b c, outcome_in l a c (Ok [x]) -> outcome_in l b c (Ok [y]) -> outcome_in l (AOp op a b) c (Ok [z]).
Proof.
  intros E l a b c Ha Hb. pose proof (op_outcome_grid l c op a b _ _ Ha Hb) as H.
  rewrite (grid_one op (fun _ => z) [x] y) in H; [apply H; discriminate|]. intros i [<-|[]]. exact E.
Qed.
Ltac vals := repeat match goal with H : agrees_value _ (QS _) ?v |- _ => is_var v; destruct v as [?|?|?]; try (destruct H; fail); cbn in H
  | H : agrees_value _ (QV _ _) ?v |- _ => is_var v; destruct v as [?|?|?]; try (destruct H; fail)
  | H : agrees_value _ (QM _ _ _) ?v |- _ => is_var v; destruct v as [?|?|?]; try (destruct H; fail) end.
Lemma combine2_agrees op s t w : combine2 op s t w -> forall x y : Value NF, av s x -> av t y -> exists z, op_meaning op x y = Ok [z] /\ av w z.
Proof.
  induction 1 as [p q|n p q|r c p q Hr|p q|n p q|r c p q Hr|p q|p n q|p n q|p r c q Hr|p r c q Hr|n p q|r c p q Hr|r c k p q Hr Hc|s t w _ IH|p q Hq|n p q Hq|r c p q Hr Hq|p q];
    intros x y Hx Hy; [..|apply IH; assumption| | | |]; destruct x as [mx|lx|x]; cbn in Hx; try easy; destruct y as [my|ly|y]; cbn in Hy; try easy.
  (* +, - *)
  - exists (@Scalar NF (fadd x y)). split; [reflexivity|]. now apply agrees_add.
  - destruct Hx as [Lx Hx], Hy as [Ly Hy]. subst n. eexists. split; [cbn [op_meaning add]; rewrite vadd_form by (exact (eq_sym Ly)); reflexivity|].
    apply av_vector. intros i Hi. apply agrees_add; [now apply Hx|now apply Hy].
  - apply av_shape in Hx as [Sx Hx]. apply av_shape in Hy as [Sy Hy]. eexists. split; [cbn [op_meaning add]; rewrite (madd_form mx my r c) by assumption; reflexivity|].
    apply av_matrix. intros i j Hi Hj. apply agrees_add; auto.
  - exists (@Scalar NF (fadd x (fmul y fm1))). split; [reflexivity|]. rewrite fmul_m1 by apply (agrees_valid _ _ Hy). apply agrees_add; [exact Hx|now apply agrees_neg].
  - destruct Hx as [Lx Hx], Hy as [Ly Hy]. subst n. eexists. split; [cbn [op_meaning sub]; rewrite vsub_form by (exact (eq_sym Ly)); reflexivity|].
    apply av_vector. intros i Hi. specialize (Hx i Hi). specialize (Hy i Hi). change (@nmul NF (@com NF ly i) (@nm1 NF)) with (fmul (@com NF ly i) fm1).
    rewrite fmul_m1 by apply (agrees_valid _ _ Hy). apply agrees_add; [exact Hx|now apply agrees_neg].
  - apply av_shape in Hx as [Sx Hx]. apply av_shape in Hy as [Sy Hy]. eexists. split; [cbn [op_meaning sub]; rewrite (msub_form mx my r c) by assumption; reflexivity|].
    apply av_matrix. intros i j Hi Hj. specialize (Hx i j Hi Hj). specialize (Hy i j Hi Hj). change (@nmul NF (@ent NF my i j) (@nm1 NF)) with (fmul (@ent NF my i j) fm1).
    rewrite fmul_m1 by apply (agrees_valid _ _ Hy). apply agrees_add; [exact Hx|now apply agrees_neg].
  (* products *)
  - exists (@Scalar NF (fmul x y)). split; [reflexivity|]. now apply agrees_mult.
  - destruct Hy as [Ly Hy]. subst n. eexists. split; [cbn [op_meaning mult]; rewrite svmult_form; reflexivity|]. apply av_vector. intros i Hi. apply agrees_mult; [now apply Hy|exact Hx].
  - destruct Hx as [Lx Hx]. subst n. eexists. split; [cbn [op_meaning mult]; rewrite svmult_form; reflexivity|]. apply av_vector. intros i Hi. apply agrees_mult; [now apply Hx|exact Hy].
  - apply av_shape in Hy as [Sy Hy]. eexists. split; [cbn [op_meaning mult]; rewrite (smmult_form x my r c) by assumption; reflexivity|].
    apply av_matrix. intros i j Hi Hj. apply agrees_mult; auto.
  - apply av_shape in Hx as [Sx Hx]. eexists. split; [cbn [op_meaning mult]; rewrite (smmult_form y mx r c) by assumption; reflexivity|].
    apply av_matrix. intros i j Hi Hj. apply agrees_mult; auto.
  - destruct Hx as [Lx Hx], Hy as [Ly Hy]. subst n. eexists. split; [cbn [op_meaning mult]; rewrite vvmult_form by (exact (eq_sym Ly)); reflexivity|].
    apply (agrees_sum (List.length lx) _ (fun k => fmul (@com NF lx k) (@com NF ly k))). intros k Hk. apply agrees_mult; [now apply Hx|now apply Hy].
  - apply av_shape in Hx as [Sx Hx]. destruct Hy as [Ly Hy]. eexists. split; [cbn [op_meaning mult]; rewrite (mvmult_form mx ly r c) by assumption; reflexivity|].
    apply av_vector. intros i Hi. apply (agrees_sum c _ (fun k => fmul (@ent NF mx i k) (@com NF ly k))). intros k Hk. apply agrees_mult; [now apply Hx|now apply Hy].
  - apply av_shape in Hx as [Sx Hx]. apply av_shape in Hy as [Sy Hy]. eexists. split; [cbn [op_meaning mult]; rewrite (mmmult_form mx my r c k) by assumption; reflexivity|].
    apply av_matrix. intros i j Hi Hj. apply (agrees_sum c _ (fun l => fmul (@ent NF mx i l) (@ent NF my l j))). intros l Hl. apply agrees_mult; [now apply Hx|now apply Hy].
  (* quotients *)
  - exists (@Scalar NF (fdiv x y)). split; [reflexivity|]. now apply agrees_div.
  - destruct Hx as [Lx Hx]. subst n. eexists. split; [cbn [op_meaning div]; unfold vsdiv; rewrite svmult_form; reflexivity|]. apply av_vector. intros i Hi.
    apply agrees_mult; [now apply Hx|]. apply (agrees_div _ _ f1 y); [exact Hq|apply agrees_exactly, double_f1|exact Hy].
  - apply av_shape in Hx as [Sx Hx]. eexists. split; [cbn [op_meaning div]; unfold msdiv; rewrite (smmult_form (@ndiv NF (@n1 NF) y) mx r c) by assumption; reflexivity|].
    apply av_matrix. intros i j Hi Hj. apply agrees_mult; [now apply Hx|]. apply (agrees_div _ _ f1 y); [exact Hq|apply agrees_exactly, double_f1|exact Hy].
  (* the cross product *)
  - destruct Hx as [Lx Hx], Hy as [Ly Hy]. destruct lx as [|x0 [|x1 [|x2 [|x3 lx]]]]; try discriminate Lx. destruct ly as [|y0 [|y1 [|y2 [|y3 ly]]]]; try discriminate Ly.
    eexists. split; [reflexivity|].
    split; [reflexivity|]. intros i Hi. destruct i as [|[|[|i]]]; [..|lia]; cbn [nth]; apply agrees_sub; apply agrees_mult; first [apply Hx|apply Hy]; lia.
Qed.
Lemma combine1_agrees op s w : combine1 op s w -> forall (x : Value NF) y, av s x -> exists z, op_meaning op x y = Ok [z] /\ av w z.
Proof.
  intros H x y Hx. destruct H as [s|p|n p Hn Hp|p Hp|n p Hn].
  - exists x. now split.
  - destruct x as [mx|lx|x]; cbn in Hx; try easy. exists (@Scalar NF (fabs' x)). split; [|now apply agrees_abs].
    unfold op_meaning, abs, fabs'. match goal with |- context [@nltb ?N ?p ?q] => change (@nltb N p q) with (fltb x f0) end. destruct (fltb x f0); reflexivity.
  - destruct x as [mx|lx|x]; cbn in Hx; try easy. destruct Hx as [Lx Hx].
    exists (@Scalar NF (fsqrt (fold_left (fun s i => fadd s (@npowi NF i 2)) lx f0))). split; [reflexivity|]. cbn [agrees_value]. apply agrees_sqrt; [exact Hp|].
    assert (E : fold_left (fun s i => fadd s (@npowi NF i 2)) lx f0 = @nsum NF n (fun k => @npowi NF (nth k lx f0) 2)).
    { clear Hx. revert Lx. generalize n. clear. intros n. change (@T NF) with f64. revert n. induction lx as [|x l IH] using rev_ind; intros n E; [subst; reflexivity|].
      rewrite app_length in E. cbn in E. rewrite Nat.add_1_r in E. subst n. rewrite nsum_S, fold_left_app. cbn [fold_left].
      rewrite app_nth2 by (apply le_n). rewrite Nat.sub_diag. cbn [nth]. apply (f_equal2 fadd); [|reflexivity]. etransitivity; [exact (IH _ eq_refl)|]. apply (@nsum_ext NF). intros k Hk. f_equal. symmetry. now apply app_nth1. }
    rewrite E. apply agrees_sum. intros k Hk. apply agrees_square. now apply Hx.
  - destruct x as [mx|lx|x]; cbn in Hx; try easy. exists (@Scalar NF (fsqrt x)). split; [reflexivity|]. now apply agrees_sqrt.
  - destruct x as [mx|lx|x]; cbn in Hx; try easy. apply av_shape in Hx as [Sx Hx]. eexists. split; [cbn [op_meaning det]; rewrite (det_form mx n Hn Sx); reflexivity|].
    now apply agrees_det.
Qed.
Lemma negated_agrees s (x z : Value NF) : av s x -> exists w, op_meaning ONeg z x = Ok [w] /\ av (q_negated s) w.
Proof.
  intros H. destruct s as [p|n p|r c p], x as [m|l|x]; cbn in H; try easy.
  - exists (@Scalar NF (fmul fm1 x)). split; [reflexivity|]. rewrite fm1_mul by apply (agrees_valid _ _ H). now apply agrees_neg.
  - destruct H as [L H]. eexists. split; [reflexivity|]. cbn. split; [now rewrite map_length|]. intros i Hi. specialize (H i Hi).
    rewrite (nth_indep _ f0 (fmul fm1 f0)) by (rewrite map_length; rewrite <- L in Hi; exact Hi).
    change (map (fun x : f64 => @nmul NF (@nm1 NF) x) l) with (map (fmul fm1) l). rewrite (map_nth (fmul fm1)).
    rewrite fm1_mul by apply (agrees_valid _ _ H). now apply agrees_neg.
  - destruct H as (L & L2 & H). exists (@Matrix NF (map (map (fmul fm1)) m)). split; [reflexivity|].
    assert (G : forall i, nth i (map (map (fmul fm1)) m) [] = map (fmul fm1) (nth i m [])).
    { intros i. change (@nil f64) with (map (fmul fm1) []) at 1. apply (map_nth (map (fmul fm1))). }
    refine (conj _ (conj _ _)).
    + rewrite <- L. exact (map_length _ m).
    + intros i Hi. change (@List.length f64 (nth i (map (map (fmul fm1)) m) []) = c). rewrite (G i), map_length. now apply L2.
    + intros i j Hi Hj. specialize (H i j Hi Hj). change (agrees (q_neg (p i j)) (nth j (nth i (map (map (fmul fm1)) m) []) f0)). rewrite (G i).
      rewrite (nth_indep _ f0 (fmul fm1 f0)) by (rewrite map_length; pose proof (L2 i Hi) as L3; rewrite <- L3 in Hj; exact Hj). rewrite (map_nth (fmul fm1)).
      rewrite fm1_mul by apply (agrees_valid _ _ H). now apply agrees_neg.
Qed.
Lemma wider_agrees s s' (x : Value NF) : all_wider s s' -> av s x -> av s' x.
Proof.
  destruct s as [p|n p|r c p], s' as [p'|n' p'|r' c' p'], x as [m|l|x]; cbn; try easy.
  - apply agrees_wider.
  - intros [<- W] [L H]. split; [exact L|]. intros i Hi. eapply agrees_wider; eauto.
  - intros (<- & <- & W) (L & L2 & H). split; [exact L|]. split; [exact L2|]. intros i j Hi Hj. eapply agrees_wider; eauto.
Qed.

(** ** Evaluation *)
Lemma choose {A} (d : A) n (P : nat -> A -> Prop) : (forall i, i < n -> exists x, P i x) -> exists l, List.length l = n /\ forall i, i < n -> P i (nth i l d).
Proof.
  induction n as [|n IH]; intros H; [exists []; split; [reflexivity|lia]|].
  destruct IH as (l & L & Hl); [intros; apply H; lia|]. destruct (H n) as (x & Hx); [lia|]. exists (l ++ [x]). split; [rewrite app_length; cbn; lia|].
  intros i Hi. destruct (Nat.eq_dec i n) as [->|Hne].
  - rewrite app_nth2, L, Nat.sub_diag by lia. exact Hx.
  - rewrite app_nth1 by lia. apply Hl. lia.
Qed.
Lemma Forall2_nth {A B} (P : A -> B -> Prop) da db l1 l2 : List.length l1 = List.length l2 -> (forall i, i < List.length l1 -> P (nth i l1 da) (nth i l2 db)) -> Forall2 P l1 l2.
Proof.
  revert l2; induction l1 as [|x l1 IH]; intros [|y l2] L H; try discriminate; constructor.
  - apply (H 0). cbn. lia.
  - apply IH; [cbn in L; lia|]. intros i Hi. apply (H (S i)). cbn. lia.
Qed.
Lemma choices_one {A} (l : list A) : choices (map (fun x => [x]) l) = [l].
Proof. induction l as [|x l IH]; [reflexivity|]. cbn. now rewrite IH. Qed.
Lemma av_scalar q (x : Value NF) : av (QS q) x -> exists y : f64, x = @Scalar NF y /\ agrees q y.
Proof. destruct x as [m|l|x]; cbn; try easy. eauto. Qed.

Lemma bind_agrees ps ss rho (xs : list (Value NF)) (c : Ctx NF) : List.length ss = List.length xs ->
  (forall i, i < List.length ss -> av (nth i ss (QS (exactly f0))) (nth i xs (@Scalar NF f0))) -> agrees_context lm rho c ->
  agrees_context lm (bind_parameters ps ss rho) (mkCtx (call_vars ps xs (vars c)) (funs c)).
Proof.
  intros L Ha Hc n s Hn. rewrite lookup_call_vars. revert ss xs L Ha Hn. induction ps as [|p ps IH]; intros [|t ss] [|x xs] L Ha Hn; try discriminate; cbn [bind_parameters] in Hn.
  1-3: destruct (Hc n s Hn) as (v & y & H1 & H2 & H3); exists v, y; split; [cbn; exact H1|auto].
  cbn [combine find fst snd]. destruct (str_eqb p n).
  - injection Hn as <-. exists (mkVar p [x]), x. split; [reflexivity|]. split; [reflexivity|]. apply (Ha 0). cbn. lia.
  - apply (IH ss xs); [cbn in L; lia| |exact Hn]. intros i Hi. apply (Ha (S i)). cbn. lia.
Qed.

Lemma sco l (c : Ctx NF) (z : f64) : outcome_in l (AScalar (z : @T NF)) c (Ok [@Scalar NF z]).
Proof. exact (@EvalProofs.scalar_outcome NF En l c z). Qed.
Lemma tracked_value fs inside rho a s : tracked lm fs inside rho a s -> forall c, funs c = fs -> agrees_context lm rho c ->
  exists x : Value NF, outcome_in inside a c (Ok [x]) /\ av s x.
Proof.
  induction 1 as [inside rho x Hx|inside rho n s Hn|inside rho es q _ IH|inside rho rows r k q Lr Lk _ IH|inside rho op a b s t w _ IHa _ IHb Hop|inside rho op a z s w _ IH Hop
    |inside rho z a s _ IH|inside rho a n q i k _ IH Hn Hi Hs Ek Hk|inside rho op f a z q v d Hf _ IH Hd Hv|inside rho a b p q v d _ IHa _ IHb Hd Hv
    |inside rho f args ss w Hne Hf Ha Hs _ IHa _ IHb|inside rho a s s' _ IH Hw]; intros c Hc Hr.
  - exists (@Scalar NF x). split; [apply sco|]. now apply agrees_exactly.
  - destruct (Hr n s Hn) as (v & x & H1 & H2 & H3). exists x. split; [|exact H3]. pose proof (@var_outcome NF En inside c n) as Ho.
    pose proof (eq_trans (f_equal (fun o => match o with Some v => Ok (var_values v) | None => Err (NoVariable n) end) H1) (f_equal Ok H2)) as E.
    exact (eq_ind _ (fun r => outcome_in inside (AVar n) c r) Ho _ E).
  - (* a vector literal *)
    assert (G : forall i, i < List.length es -> exists y : f64, outcome_in inside (nth i es (AList [])) c (Ok [@Scalar NF y]) /\ agrees (q i) y).
    { intros i Hi. destruct (IH i Hi c Hc Hr) as (x & Ho & Hx). apply av_scalar in Hx as (y & -> & Hy). eauto. }
    apply (choose (f0 : f64)) in G as (l & Ll & G). exists (@Vector NF l). split; [|split; [exact Ll|intros i Hi; now apply G]].
    replace [@Vector NF l] with (map (@Vector NF) (choices (map (fun x : @T NF => [x]) l))) by (now rewrite choices_one). apply vector_outcome.
    apply (Forall2_nth _ (AList []) [f0 : @T NF]); [rewrite map_length; symmetry; exact Ll|]. intros i Hi.
    rewrite (map_nth (fun x : @T NF => [x])). apply (G i Hi).
  - (* a matrix literal *)
    assert (G : forall i, i < r -> exists l : list f64, List.length l = k /\ forall j, j < k -> outcome_in inside (nth j (nth i rows []) (AList [])) c (Ok [@Scalar NF (nth j l f0)]) /\ agrees (q i j) (nth j l f0)).
    { intros i Hi. apply (choose (f0 : f64) k (fun j y => outcome_in inside (nth j (nth i rows []) (AList [])) c (Ok [@Scalar NF y]) /\ agrees (q i j) y)). intros j Hj. destruct (IH i j Hi Hj c Hc Hr) as (x & Ho & Hx). apply av_scalar in Hx as (y & -> & Hy). eauto. }
    apply (choose (@nil f64)) in G as (m & Lm & G). exists (@Matrix NF m). split.
    + replace [@Matrix NF m] with (map (@Matrix NF) (choices (map choices (map (map (fun x : @T NF => [x])) m)))).
      2: { rewrite map_map. rewrite (map_ext _ (fun r => [r])) by (intros; apply choices_one). now rewrite choices_one. }
      apply matrix_outcome. apply (Forall2_nth _ [] []); [rewrite map_length, Lr; symmetry; exact Lm|]. intros i Hi. rewrite Lr in Hi. destruct (G i Hi) as [G1 G2].
      pose proof (map_nth (map (fun x : @T NF => [x])) m [] i) as Em. cbn beta. refine (eq_ind _ (fun w => Forall2 (fun e ss => outcome_in inside e c (Ok (map (@Scalar NF) ss))) (nth i rows []) w) _ _ (eq_sym Em)).
      apply (Forall2_nth _ (AList []) [f0 : @T NF]); [rewrite map_length, (Lk i Hi); symmetry; exact G1|]. intros j Hj. rewrite (Lk i Hi) in Hj.
      rewrite (map_nth (fun x : @T NF => [x])). apply (G2 j Hj).
    + split; [exact Lm|]. split; [intros i Hi; apply (G i Hi)|]. intros i j Hi Hj. apply (G i Hi). exact Hj.
  - destruct (IHa c Hc Hr) as (x & Ox & Hx), (IHb c Hc Hr) as (y & Oy & Hy). destruct (combine2_agrees op s t w Hop x y Hx Hy) as (u & E & Hu).
    exists u. split; [now apply (one_result op x y u E)|exact Hu].
  - destruct (IH c Hc Hr) as (x & Ox & Hx). destruct (combine1_agrees op s w Hop x (@Scalar NF z) Hx) as (u & E & Hu).
    exists u. split; [apply (one_result op x (@Scalar NF z) u E); [exact Ox|apply sco]|exact Hu].
  - destruct (IH c Hc Hr) as (x & Ox & Hx). destruct (negated_agrees s x (@Scalar NF z) Hx) as (u & E & Hu).
    exists u. split; [apply (one_result ONeg (@Scalar NF z) x u E); [apply sco|exact Ox]|exact Hu].
  - (* components *)
    destruct (IH c Hc Hr) as (x & Ox & Hx). destruct x as [m|l|x]; cbn in Hx; try easy. destruct Hx as [Ll Hx].
    exists (@Scalar NF (nth k l f0)). split; [|apply Hx; exact Hk].
    apply (one_result OGet (@Vector NF l) (@Scalar NF i)); [|exact Ox|apply sco].
    assert (E : get (@Vector NF l) (@Scalar NF i) = Ok (@Scalar NF (nth k l f0))).
    { apply (c27_indexing lm l i).
      - revert Hn. rewrite <- Ll. exact (fun h => h).
      - exists k, (nth k l f0). destruct Hi as [_ Fi]. split; [exact Fi|]. split; [exact Hs|]. split; [exact Ek|]. split; [|reflexivity]. apply nth_error_nth'. revert Hk. rewrite <- Ll. exact (fun h => h). }
    cbn [op_meaning]. rewrite E. reflexivity.
  - (* functions of the platform *)
    destruct (IH c Hc Hr) as (x & Ox & Hx). apply av_scalar in Hx as (y & -> & Hy). exists (@Scalar NF (f y)). split.
    + apply (one_result op (@Scalar NF y) (@Scalar NF z)); [|exact Ox|apply sco].
      repeat (destruct Hf as [Hf|Hf]; [injection Hf as <- <-; reflexivity|]). destruct Hf.
    + destruct Hy as [Vy Hy]. split; [now apply Hv|]. cbn [top value error]. intros T. destruct (Hy T) as [Fy Ey]. destruct (Hd y (conj Vy Fy) Ey) as [[_ D1] D2]. auto.
  - destruct (IHa c Hc Hr) as (x & Ox & Hx), (IHb c Hc Hr) as (y & Oy & Hy). apply av_scalar in Hx as (x' & -> & Hx). apply av_scalar in Hy as (y' & -> & Hy).
    exists (@Scalar NF (lm_powf lm x' y')). split; [apply (one_result OPow (@Scalar NF x') (@Scalar NF y')); [reflexivity|exact Ox|exact Oy]|].
    destruct Hx as [Vx Hx], Hy as [Vy Hy]. split; [now apply Hv|]. cbn [top value error]. intros T. apply both_top in T as [T1 T2].
    destruct (Hx T1) as [Fx Ex], (Hy T2) as [Fy Ey]. destruct (Hd x' y' (conj Vx Fx) (conj Vy Fy) Ex Ey) as [[_ D1] D2]. auto.
  - (* calls *)
    assert (G : forall i, i < List.length args -> exists x : Value NF, outcome_in inside (nth i args (AList [])) c (Ok [x]) /\ av (nth i ss (QS (exactly f0))) x) by (intros i Hi; now apply IHa).
    apply (choose (@Scalar NF f0)) in G as (xs & Lx & G).
    destruct (IHb (mkCtx (call_vars (fun_inputs f) xs (vars c)) (funs c)) Hc) as (x & Ox & Hx).
    { apply bind_agrees; [congruence| |exact Hr]. intros i Hi. apply G. rewrite <- Hs. exact Hi. }
    exists x. split; [|exact Hx].
    apply (call_outcome inside c (fun_name f) args f (map (fun x => [x]) xs) [[x]]); [exact Hne| |exact Ha| |].
    + unfold lookup_fun. rewrite Hc. exact Hf.
    + apply (Forall2_nth _ (AList []) [@Scalar NF f0]); [rewrite map_length; congruence|]. intros i Hi. rewrite (map_nth (fun x : Value NF => [x])). now apply G.
    + rewrite choices_one. constructor; [exact Ox|constructor].
  - destruct (IH c Hc Hr) as (x & Ox & Hx). exists x. split; [exact Ox|]. eapply wider_agrees; eauto.
Qed.

(** ** C80 *)
(** Evaluation gives one value, and it has the quantities found by the rules. *)
Theorem c80_propagation (c : Ctx NF) rho a s : tracked lm (funs c) [] rho a s -> agrees_context lm rho c ->
  exists x : Value NF, outcome a c (Ok [x]) /\ agrees_value lm s x.
Proof. intros H Hr. exact (tracked_value (funs c) [] rho a s H c eq_refl Hr). Qed.
(** For a number: if no operand or result reaches the largest double then the
    computed double is as near as the bound says. *)
Theorem c80_number (c : Ctx NF) rho t a q : parse t = Ok a -> tracked lm (funs c) [] rho a (QS q) -> agrees_context lm rho c -> (top q < overflow_threshold)%R ->
  exists x : f64, quick_outcome t c (Ok [@Scalar NF x]) /\ double x /\ (Rabs (fR x - value q) <= error q)%R.
Proof.
  intros Hp H Hr Ht. destruct (c80_propagation c rho a (QS q) H Hr) as (x & Ho & Hx). apply av_scalar in Hx as (y & -> & V & Hy). destruct (Hy Ht) as [F E].
  exists y. split; [|split; [now split|exact E]]. apply c40_quick_eval. eauto.
Qed.
(** The rules for sin and cos, given how accurate the platform's are. *)
Lemma Rabs_sin_lipschitz x y : (Rabs (Rtrigo_def.sin x - Rtrigo_def.sin y) <= Rabs (x - y))%R.
Proof.
  destruct (MVT_abs Rtrigo_def.sin Rtrigo_def.cos y x) as (c & E & _); [intros; apply derivable_pt_lim_sin|]. rewrite E.
  rewrite <- (Rmult_1_l (Rabs (x - y))) at 2. apply Rmult_le_compat_r; [apply Rabs_pos|]. apply Rabs_le, COS_bound.
Qed.
Lemma Rabs_cos_lipschitz x y : (Rabs (Rtrigo_def.cos x - Rtrigo_def.cos y) <= Rabs (x - y))%R.
Proof.
  destruct (MVT_abs Rtrigo_def.cos (fun t => - Rtrigo_def.sin t)%R y x) as (c & E & _); [intros; apply derivable_pt_lim_cos|]. rewrite E, Rabs_Ropp.
  rewrite <- (Rmult_1_l (Rabs (x - y))) at 2. apply Rmult_le_compat_r; [apply Rabs_pos|]. apply Rabs_le, SIN_bound.
Qed.
Theorem c80_sin fs inside rho a z q eps : tracked lm fs inside rho a (QS q) ->
  (forall x, fvalid x = true -> fvalid (lm_sin lm x) = true) ->
  (forall x, double x -> (Rabs (fR x - value q) <= error q)%R -> double (lm_sin lm x) /\ (Rabs (fR (lm_sin lm x) - Rtrigo_def.sin (fR x)) <= eps)%R) ->
  tracked lm fs inside rho (AOp OSin a (AScalar z)) (QS (mkQ (Rtrigo_def.sin (value q)) (error q + eps) (top q))).
Proof.
  intros H Hv Hs. eapply T_platform; [now left|exact H| |exact Hv]. intros x Dx Ex. destruct (Hs x Dx Ex) as [D E]. split; [exact D|].
  replace (fR (lm_sin lm x) - Rtrigo_def.sin (value q))%R with ((Rtrigo_def.sin (fR x) - Rtrigo_def.sin (value q)) + (fR (lm_sin lm x) - Rtrigo_def.sin (fR x)))%R by ring.
  eapply Rle_trans; [apply Rabs_triang|]. pose proof (Rabs_sin_lipschitz (fR x) (value q)). lra.
Qed.
Theorem c80_cos fs inside rho a z q eps : tracked lm fs inside rho a (QS q) ->
  (forall x, fvalid x = true -> fvalid (lm_cos lm x) = true) ->
  (forall x, double x -> (Rabs (fR x - value q) <= error q)%R -> double (lm_cos lm x) /\ (Rabs (fR (lm_cos lm x) - Rtrigo_def.cos (fR x)) <= eps)%R) ->
  tracked lm fs inside rho (AOp OCos a (AScalar z)) (QS (mkQ (Rtrigo_def.cos (value q)) (error q + eps) (top q))).
Proof.
  intros H Hv Hs. eapply T_platform; [right; now left|exact H| |exact Hv]. intros x Dx Ex. destruct (Hs x Dx Ex) as [D E]. split; [exact D|].
  replace (fR (lm_cos lm x) - Rtrigo_def.cos (value q))%R with ((Rtrigo_def.cos (fR x) - Rtrigo_def.cos (value q)) + (fR (lm_cos lm x) - Rtrigo_def.cos (fR x)))%R by ring.
  eapply Rle_trans; [apply Rabs_triang|]. pose proof (Rabs_cos_lipschitz (fR x) (value q)). lra.
Qed.
Lemma pi64_near' : (Rabs (fR pi64 - PI) < / 2 ^ 52)%R. Proof. rewrite <- bpow_52. exact pi64_near. Qed.
Lemma e64_near' : (Rabs (fR e64 - exp 1) < / 2 ^ 52)%R. Proof. rewrite <- bpow_52. exact e64_near. Qed.
(** The names of a new context. *)
Definition constants : names := fun n =>
  if str_eqb n (lit "pi") then Some (QS (roughly PI (/ 2 ^ 52))) else if str_eqb n (lit "e") then Some (QS (roughly (exp 1) (/ 2 ^ 52))) else None.
Theorem c80_constants fs : agrees_context lm constants (mkCtx (vars (@ctx_default NF)) fs).
Proof.
  intros n s. unfold constants. destruct (str_eqb n (lit "pi")) eqn:E1; [|destruct (str_eqb n (lit "e")) eqn:E2; [|discriminate]]; intros H; injection H as <-.
  - apply str_eqb_eq in E1 as ->. exists (mkVar (lit "pi") [@Scalar NF pi64]), (@Scalar NF pi64). split; [reflexivity|]. split; [reflexivity|].
    split; [reflexivity|]. intros _. split; [reflexivity|]. exact (Rlt_le _ _ pi64_near').
  - apply str_eqb_eq in E2 as ->. exists (mkVar (lit "e") [@Scalar NF e64]), (@Scalar NF e64). split; [reflexivity|]. split; [reflexivity|].
    split; [reflexivity|]. intros _. split; [reflexivity|]. exact (Rlt_le _ _ e64_near').
Qed.
End Shapes.

Module Examples.
#[local] Existing Instance ET.
Definition two : f64 := f_of_Z 2.
(** area(r) = pi*r*r *)
Definition body : AST NT := AOp OMult (AOp OMult (AVar (lit "pi")) (AVar (lit "r"))) (AVar (lit "r")).
Definition area : MFun NT := mkFun (lit "area") body [lit "r"].
Definition ctx : Ctx NT := mkCtx (vars (@ctx_default NT)) [area].
Example parsed : @parse NT ET (lit "area(2)") = Ok (AFun (lit "area") [AScalar (two : @T NT)]).
Proof. reflexivity. Qed.
Definition circle : quantity := q_mult (q_mult (roughly PI (/ 2 ^ 52)) (exactly two)) (exactly two).
Lemma circle_tracked : tracked toy (funs ctx) [] constants (AFun (lit "area") [AScalar (two : @T NT)]) (QS circle).
Proof.
  apply (T_call toy (funs ctx) [] constants area [AScalar (two : @T NT)] [QS (exactly two)]); try reflexivity.
  - discriminate.
  - intros [|i] Hi; [|cbn in Hi; lia]. apply T_number. split; reflexivity.
  - assert (Hr : bind_parameters (fun_inputs area) [QS (exactly two)] constants (lit "r") = Some (QS (exactly two))) by reflexivity.
    eapply T_binary; [eapply T_binary; [apply T_name|apply T_name; exact Hr|apply C_mult]|apply T_name; exact Hr|apply C_mult]. reflexivity.
Qed.
Lemma two_R : fR two = 2%R.
Proof. assert (E : two = S754_finite false 4503599627370496 (-51)) by (vm_compute; reflexivity). rewrite E. unfold fR, SF2R, F2R. cbn. lra. Qed.
Lemma small : (0 < / 2 ^ 53 <= / 10 ^ 15)%R.
Proof. split; [apply Rinv_0_lt_compat; apply pow_lt; lra|]. apply Rinv_le_contravar; [apply pow_lt; lra|]. rewrite !(pow_IZR _ _). apply IZR_le. vm_compute. discriminate. Qed.
Lemma tiny_small : (0 < tiny <= / 2 ^ 53)%R.
Proof. unfold tiny. split; [apply Rinv_0_lt_compat; apply pow_lt; lra|]. apply Rinv_le_contravar; [apply pow_lt; lra|]. apply Rle_pow; [lra|lia]. Qed.
Lemma threshold_large : (1000 < overflow_threshold)%R.
Proof. unfold overflow_threshold. apply IZR_lt. reflexivity. Qed.
(** area(2) is within 10^-13 of 4 pi. *)
Example circle_area : exists x : f64, quick_outcome (lit "area(2)") ctx (Ok [@Scalar NT x]) /\ double x /\ (Rabs (fR x - 4 * PI) <= / 10 ^ 13)%R.
Proof.
  pose proof PI_RGT_0 as P0. pose proof PI_4 as P4. pose proof small as S. pose proof tiny_small as Ti. pose proof threshold_large as Th. pose proof two_R as E2.
  assert (E52 : (/ 2 ^ 52 = 2 * / 2 ^ 53)%R) by (cbn; field).
  assert (S2 : (/ 10 ^ 15 = / 100 * / 10 ^ 13)%R) by (cbn; field). assert (S3 : (0 < / 10 ^ 13 <= 1)%R).
  { split; [apply Rinv_0_lt_compat; apply pow_lt; lra|]. rewrite <- Rinv_1. apply Rinv_le_contravar; [lra|]. apply pow_R1_Rle. lra. }
  set (u := (/ 2 ^ 53)%R) in *.
  assert (EV : value circle = (4 * PI)%R) by (cbn [circle value q_mult rounding roughly exactly]; rewrite E2; ring).
  assert (A1 : Rabs (PI * 2) = (PI * 2)%R) by (apply Rabs_pos_eq; lra). assert (A2 : Rabs (PI * 2 * 2) = (PI * 2 * 2)%R) by (apply Rabs_pos_eq; lra).
  assert (A0 : Rabs PI = PI) by (apply Rabs_pos_eq; lra). assert (A3 : Rabs 2 = 2%R) by (apply Rabs_pos_eq; lra).
  assert (B : (error circle <= 90 * u /\ top circle <= 100)%R).
  { cbn [circle error top value q_mult rounding roughly exactly]. fold u. rewrite E2, E52, A1, A2, A3, A0. change unit_roundoff with u.
    assert (U : (u <= / 100)%R) by lra. assert (Q : (0 <= u * u <= u)%R) by nra. assert (Q3 : (0 <= u * u * u <= u)%R) by nra. assert (QP : (0 <= u * PI <= 4 * u)%R) by nra.
    assert (QQP : (0 <= u * u * PI <= 4 * u)%R) by nra. assert (QT : (0 <= u * tiny <= u)%R) by nra.
    split; [lra|]. repeat apply Rmax_lub; lra. }
  destruct (c80_number toy ctx constants (lit "area(2)") _ circle parsed circle_tracked) as (x & H1 & H2 & H3).
  - exact (c80_constants toy [area]).
  - lra.
  - exists x. split; [exact H1|]. split; [exact H2|]. rewrite EV in H3. lra.
Qed.
(** 1/e and |[2,2]|: the conditions on the operands are met. *)
Example inverse_tracked : tracked toy [] [] constants (AOp ODiv (AScalar (f1 : @T NT)) (AVar (lit "e"))) (QS (q_div (exactly f1) (roughly (exp 1) (/ 2 ^ 52)))).
Proof.
  eapply T_binary; [apply T_number; split; reflexivity|apply T_name; reflexivity|apply C_div].
  unfold away_from_0. cbn [value error roughly]. pose proof (exp_ineq1 1 ltac:(lra)) as E. rewrite Rabs_pos_eq by lra.
  assert (/ 2 ^ 52 <= 1)%R; [|lra]. rewrite <- Rinv_1. apply Rinv_le_contravar; [lra|]. apply pow_R1_Rle. lra.
Qed.
Example norm_tracked : exists q, value q = R_sqrt.sqrt 8 /\
  tracked toy [] [] (fun _ => None) (AOp OAbs (AVector [AScalar (two : @T NT); AScalar (two : @T NT)]) (AScalar (f0 : @T NT))) (QS q).
Proof.
  set (p := fun _ : nat => exactly two). exists (q_sqrt (q_sum 2 (fun k => q_mult (p k) (p k)))). pose proof two_R as E2.
  assert (E0 : fR f0 = 0%R) by reflexivity. pose proof small as S. pose proof tiny_small as Ti.
  assert (EV : value (q_sum 2 (fun k => q_mult (p k) (p k))) = 8%R).
  { cbn [q_sum q_add q_mult rounding exactly value p]. rewrite E2. change (fR f0) with 0%R. ring. }
  split; [cbn [q_sqrt rounding value]; now rewrite EV|]. eapply T_unary.
  - apply (T_vector toy [] [] (fun _ => None) [AScalar (two : @T NT); AScalar (two : @T NT)] p). intros [|[|i]] Hi; [| |cbn in Hi; lia]; apply T_number; split; reflexivity.
  - apply (C_norm 2 p); [lia|]. split; [rewrite EV; lra|]. rewrite EV.
    cbn [q_sum q_add q_mult rounding exactly value error p]. rewrite E2. change (fR f0) with 0%R. change unit_roundoff with (/ 2 ^ 53)%R. set (u := (/ 2 ^ 53)%R) in *.
    assert (U : (u <= / 100)%R). { assert (/ 10 ^ 15 <= / 100)%R; [|lra]. apply Rinv_le_contravar; [lra|]. cbn. lra. }
    assert (A : forall x, (0 <= x)%R -> Rabs x = x) by (intros; now apply Rabs_pos_eq).
    rewrite (A 2%R), (A (2 * 2)%R), (A (0 + 2 * 2)%R), (A (0 + 2 * 2 + 2 * 2)%R) by lra.
    assert (Q : (0 <= u * u <= u)%R) by nra. assert (Q3 : (0 <= u * u * u <= u)%R) by nra. assert (QT : (0 <= u * tiny <= u)%R) by nra. assert (QQT : (0 <= u * u * tiny <= u)%R) by nra. lra.
Qed.
End Examples.
