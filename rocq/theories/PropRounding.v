(** * PropRounding: C63 - scalar arithmetic is correctly rounded; C64 - error
    bounds for dot products and matrix products in binary64. *)
From Coq Require Import List NArith ZArith Bool String Arith Lia SpecFloat Reals Lra.
From Flocq Require Import Core IEEE754.BinarySingleNaN Relative Plus_error.
From Verif Require Import Base BaseFacts F64 Num Types Maths Eval EvalFuel SpecEval EvalProofs PropEval GrammarSpec ShapeSpec MathsForms FloatFacts DecimalFloat PropNumber.
Import ListNotations.
Local Open Scope list_scope.

(** ** Rounding *)
Lemma RN_opp v : RN (- v) = (- RN v)%R.
Proof. unfold RN. apply round_NE_opp. Qed.
Lemma RN_abs v : RN (Rabs v) = Rabs (RN v).
Proof.
  unfold Rabs at 1. destruct (Rcase_abs v) as [H|H].
  - rewrite RN_opp. symmetry. apply Rabs_left1. rewrite <- RN_0. apply RN_le. lra.
  - symmetry. apply Rabs_pos_eq. rewrite <- RN_0. apply RN_le. lra.
Qed.
Lemma RN_small v : (Rabs v < overflow_threshold)%R <-> (Rabs (RN v) < bpow radix2 emax64)%R.
Proof.
  rewrite <- RN_abs. split; intros H.
  - apply RN_below. split; [apply Rabs_pos|exact H].
  - apply Rnot_le_lt. intros G. apply RN_le in G. pose proof RN_threshold. lra.
Qed.
Lemma nearest_of_spec v z s : fvalid z = true ->
  (if Rlt_bool (Rabs (RN v)) (bpow radix2 emax64) then fis_finite z = true /\ fR z = RN v else z = S754_infinity s) ->
  ((v < 0)%R -> s = true) -> ((0 < v)%R -> s = false) -> nearest_double v z.
Proof.
  intros V H S1 S2. split; [exact V|]. destruct (Rlt_dec (Rabs v) overflow_threshold) as [L|L].
  - rewrite Rlt_bool_true in H by (now apply RN_small). destruct H as [H1 H2]. split; [exact H1|]. now apply nearest_of_RN.
  - rewrite Rlt_bool_false in H. 2: { apply Rnot_lt_le. intros G. apply L. now apply RN_small. }
    rewrite H. f_equal. destruct (Rlt_dec v 0); [auto|]. destruct (Req_dec v 0) as [->|]; [|apply S2; lra].
    exfalso. apply L. rewrite Rabs_R0. unfold overflow_threshold. now apply IZR_lt.
Qed.
Lemma fR_negative x : (fR x < 0)%R -> fsign_neg x = true.
Proof. intros H. destruct (fR_sign x) as [_ G]. destruct (fsign_neg x); [reflexivity|]. specialize (G eq_refl). lra. Qed.
Lemma fR_positive x : (0 < fR x)%R -> fsign_neg x = false.
Proof. intros H. destruct (fR_sign x) as [G _]. destruct (fsign_neg x); [|reflexivity]. specialize (G eq_refl). lra. Qed.
Lemma fadd_nearest x y : fvalid x = true -> fvalid y = true -> fis_finite x = true -> fis_finite y = true -> nearest_double (fR x + fR y) (fadd x y).
Proof.
  intros Vx Vy Fx Fy. pose proof (fadd_spec x y Vx Vy Fx Fy) as H. cbv zeta in H.
  pose proof (fR_sign x) as [X1 X2]. pose proof (fR_sign y) as [Y1 Y2].
  destruct (Rlt_bool_spec (Rabs (RN (fR x + fR y))) (bpow radix2 emax64)) as [L|L].
  - apply (nearest_of_spec _ _ (Rlt_bool (fR x + fR y) 0)); [now apply fadd_valid| | |]; [now rewrite Rlt_bool_true by exact L| |]; intros; [now apply Rlt_bool_true|apply Rlt_bool_false; lra].
  - destruct H as [H E]. apply (nearest_of_spec _ _ (fsign_neg x)); [now apply fadd_valid|now rewrite Rlt_bool_false by exact L| |]; intros G;
      destruct (fsign_neg x); rewrite <- E in *; try reflexivity; [specialize (X2 eq_refl); specialize (Y2 eq_refl); lra|specialize (X1 eq_refl); specialize (Y1 eq_refl); lra].
Qed.
Lemma fmul_nearest x y : fvalid x = true -> fvalid y = true -> fis_finite x = true -> fis_finite y = true -> nearest_double (fR x * fR y) (fmul x y).
Proof.
  intros Vx Vy Fx Fy. pose proof (fmul_spec x y Vx Vy Fx Fy) as H. cbv zeta in H.
  apply (nearest_of_spec _ _ (xorb (fsign_neg x) (fsign_neg y))); [now apply fmul_valid|exact H| |]; intros G;
    pose proof (fR_sign x) as [X1 X2]; pose proof (fR_sign y) as [Y1 Y2]; destruct (fsign_neg x), (fsign_neg y); cbn [xorb]; try reflexivity;
    repeat match goal with HH : ?a = ?a -> _ |- _ => specialize (HH eq_refl) end; exfalso.
  - pose proof (Rmult_le_pos (- fR x) (- fR y) ltac:(lra) ltac:(lra)). lra.
  - pose proof (Rmult_le_pos (fR x) (fR y) ltac:(lra) ltac:(lra)). lra.
  - pose proof (Rmult_le_pos (- fR x) (fR y) ltac:(lra) ltac:(lra)). lra.
  - pose proof (Rmult_le_pos (fR x) (- fR y) ltac:(lra) ltac:(lra)). lra.
Qed.
Lemma fdiv_nearest x y : fvalid x = true -> fvalid y = true -> fis_finite x = true -> (fR y <> 0)%R -> nearest_double (fR x / fR y) (fdiv x y).
Proof.
  intros Vx Vy Fx Fy. pose proof (fdiv_spec x y Vx Vy Fx Fy) as H. cbv zeta in H.
  apply (nearest_of_spec _ _ (xorb (fsign_neg x) (fsign_neg y))); [now apply fdiv_valid|exact H| |]; unfold Rdiv; intros G;
    pose proof (fR_sign x) as [X1 X2]; pose proof (fR_sign y) as [Y1 Y2]; destruct (fsign_neg x), (fsign_neg y); cbn [xorb]; try reflexivity;
    repeat match goal with HH : ?a = ?a -> _ |- _ => specialize (HH eq_refl) end; exfalso.
  - pose proof (Rmult_le_pos (- fR x) (/ - fR y) ltac:(lra) ltac:(left; apply Rinv_0_lt_compat; lra)) as P. rewrite Rinv_opp in P. lra.
  - pose proof (Rmult_le_pos (fR x) (/ fR y) ltac:(lra) ltac:(left; apply Rinv_0_lt_compat; lra)). lra.
  - pose proof (Rmult_le_pos (- fR x) (/ fR y) ltac:(lra) ltac:(left; apply Rinv_0_lt_compat; lra)). lra.
  - pose proof (Rmult_le_pos (fR x) (/ - fR y) ltac:(lra) ltac:(left; apply Rinv_0_lt_compat; lra)) as P. rewrite Rinv_opp in P. lra.
Qed.

(** ** Sums of products *)
Definition u : R := (/ 2 ^ 53)%R.
Definition eta : R := (/ 2 ^ 1075)%R.
Fixpoint total (n : nat) (f : nat -> R) : R := match n with O => 0%R | S k => (total k f + f k)%R end.

Lemma u_ro_u : u_ro radix2 prec64 = u.
Proof.
  unfold u_ro, u. change (- prec64 + 1)%Z with (Z.opp 52). rewrite bpow_opp, <- (IZR_Zpower radix2 52) by lia.
  change (IZR (radix2 ^ 52)) with (IZR (2 ^ 52)). rewrite (pow_IZR 2 53). change (2 ^ Z.of_nat 53)%Z with (2 * 2 ^ 52)%Z. rewrite mult_IZR.
  rewrite Rinv_mult. reflexivity.
Qed.
Lemma u_pos : (0 < u)%R. Proof. unfold u. apply Rinv_0_lt_compat. apply pow_lt. lra. Qed.
Lemma eta_pos : (0 < eta)%R. Proof. unfold eta. apply Rinv_0_lt_compat. apply pow_lt. lra. Qed.
Lemma u_small : (u / (1 + u) <= u)%R.
Proof.
  pose proof u_pos. unfold Rdiv. rewrite <- (Rmult_1_r u) at 3. apply Rmult_le_compat_l; [lra|]. rewrite <- Rinv_1. apply Rinv_le_contravar; lra.
Qed.
Lemma mul_error x y : fvalid x = true -> fvalid y = true -> fis_finite x = true -> fis_finite y = true -> fis_finite (fmul x y) = true ->
  (Rabs (fR (fmul x y) - fR x * fR y) <= u * Rabs (fR x * fR y) + eta)%R.
Proof.
  intros Vx Vy Fx Fy F. pose proof (fmul_spec x y Vx Vy Fx Fy) as H. cbv zeta in H.
  assert (E : fR (fmul x y) = RN (fR x * fR y)).
  { destruct (Rlt_bool _ _); [apply H|]. rewrite H in F. discriminate. }
  rewrite E. clear H E. set (v := (fR x * fR y)%R). 
  destruct (relative_error_N_FLT'_ex radix2 (3 - emax64 - prec64) prec64 ltac:(reflexivity) (fun x => negb (Z.even x)) v) as (d & e & Hd & He & _ & G).
  rewrite u_ro_u in Hd. assert (R : RN v = (v * (1 + d) + e)%R) by exact G. rewrite R. replace (v * (1 + d) + e - v)%R with (d * v + e)%R by ring.
  eapply Rle_trans; [apply Rabs_triang|]. rewrite Rabs_mult. apply Rplus_le_compat.
  - apply Rmult_le_compat_r; [apply Rabs_pos|]. pose proof u_small. lra.
  - eapply Rle_trans; [exact He|]. right. unfold eta. change (3 - emax64 - prec64)%Z with (Z.opp 1074). rewrite bpow_opp, <- (IZR_Zpower radix2 1074) by lia.
    change (IZR (radix2 ^ 1074)) with (IZR (2 ^ 1074)). rewrite (pow_IZR 2 1075).
    replace (2 ^ Z.of_nat 1075)%Z with (2 * 2 ^ 1074)%Z by (change (Z.of_nat 1075) with (Z.succ 1074); now rewrite Z.pow_succ_r by lia).
    rewrite mult_IZR, Rinv_mult. reflexivity.
Qed.
Lemma add_error x y : fvalid x = true -> fvalid y = true -> fis_finite x = true -> fis_finite y = true -> fis_finite (fadd x y) = true ->
  (Rabs (fR (fadd x y) - (fR x + fR y)) <= u * Rabs (fR x + fR y))%R.
Proof.
  intros Vx Vy Fx Fy F. pose proof (fadd_spec x y Vx Vy Fx Fy) as H. cbv zeta in H.
  assert (E : fR (fadd x y) = RN (fR x + fR y)).
  { destruct (Rlt_bool _ _); [apply H|]. destruct H as [H _]. rewrite H in F. discriminate. }
  rewrite E. clear H E.
  destruct (FLT_plus_error_N_ex radix2 (3 - emax64 - prec64) prec64 (fun x => negb (Z.even x)) (fR x) (fR y) (fR_format x Vx) (fR_format y Vy)) as (d & Hd & G).
  rewrite u_ro_u in Hd. assert (R : RN (fR x + fR y) = ((fR x + fR y) * (1 + d))%R) by exact G. rewrite R. replace ((fR x + fR y) * (1 + d) - (fR x + fR y))%R with (d * (fR x + fR y))%R by ring.
  rewrite Rabs_mult. apply Rmult_le_compat_r; [apply Rabs_pos|]. pose proof u_small. lra.
Qed.
Lemma fadd_finite x y : fis_finite (fadd x y) = true -> fis_finite x = true /\ fis_finite y = true.
Proof. destruct x as [?|[]| |? ? ?], y as [?|[]| |? ? ?]; cbn; auto. Qed.
Lemma fmul_finite x y : fis_finite (fmul x y) = true -> fis_finite x = true /\ fis_finite y = true.
Proof. destruct x as [?|?| |? ? ?], y as [?|?| |? ? ?]; cbn; auto. Qed.

(** Left-to-right binary64 sum of products; [nsum] of MathsForms at binary64. *)
Definition fdot (n : nat) (x y : nat -> f64) : f64 := fold_left (fun s k => fadd s (fmul (x k) (y k))) (seq 0 n) f0.
Lemma fdot_S n x y : fdot (S n) x y = fadd (fdot n x y) (fmul (x n) (y n)).
Proof. unfold fdot. rewrite seq_S, fold_left_app. reflexivity. Qed.
Lemma fdot_valid n x y : (forall k, k < n -> fvalid (x k) = true /\ fvalid (y k) = true) -> fvalid (fdot n x y) = true.
Proof.
  induction n as [|n IH]; intros V; [reflexivity|]. rewrite fdot_S. destruct (V n ltac:(lia)). apply fadd_valid; [apply IH; intros; apply V; lia|now apply fmul_valid].
Qed.
Lemma total_abs n f : (Rabs (total n f) <= total n (fun k => Rabs (f k)))%R.
Proof. induction n as [|n IH]; cbn [total]; [rewrite Rabs_R0; lra|]. eapply Rle_trans; [apply Rabs_triang|lra]. Qed.
Lemma total_pos n f : (0 <= total n (fun k => Rabs (f k)))%R.
Proof. eapply Rle_trans; [apply Rabs_pos|apply total_abs]. Qed.
Lemma fadd_0_l p : fvalid p = true -> fis_finite p = true -> fR (fadd f0 p) = fR p.
Proof.
  intros V F. pose proof (fadd_spec f0 p f0_valid V eq_refl F) as H. cbv zeta in H. rewrite fR_f0, Rplus_0_l, RN_id in H by exact V.
  rewrite Rlt_bool_true in H; [apply H|now apply fR_lt_emax].
Qed.
Lemma step_bound (k : nat) (g A X E D t s p P x : R) : (1 <= k)%nat -> g = ((1 + u) ^ k)%R -> (0 <= A)%R -> (0 <= X)%R ->
  (Rabs P <= A)%R -> (Rabs x = X)%R -> (Rabs (s - P) <= (g - 1) * A + INR k * g * eta)%R -> (Rabs (p - x) <= u * X + eta)%R ->
  (Rabs (t - (s + p)) <= u * Rabs (s + p))%R ->
  (Rabs (t - (P + x)) <= ((1 + u) * g - 1) * (A + X) + (INR k + 1) * ((1 + u) * g) * eta)%R.
Proof.
  intros K Hg HA HX HP Hx HE HD Ht. pose proof u_pos as U. pose proof eta_pos as He.
  assert (G : (1 + u <= g)%R).
  { rewrite Hg, <- (pow_1 (1 + u)) at 1. apply Rle_pow; [lra|exact K]. }
  set (E0 := ((g - 1) * A + INR k * g * eta)%R) in *. set (D0 := (u * X + eta)%R) in *.
  assert (S : (Rabs (s + p) <= A + X + E0 + D0)%R).
  { replace (s + p)%R with ((s - P) + (p - x) + (P + x))%R by ring. eapply Rle_trans; [apply Rabs_triang|].
    pose proof (Rabs_triang (s - P) (p - x)). pose proof (Rabs_triang P x). lra. }
  assert (B : (Rabs (t - (P + x)) <= u * (A + X + E0 + D0) + E0 + D0)%R).
  { replace (t - (P + x))%R with ((t - (s + p)) + (s - P) + (p - x))%R by ring. eapply Rle_trans; [apply Rabs_triang|].
    pose proof (Rabs_triang (t - (s + p)) (s - P)). pose proof (Rmult_le_compat_l u _ _ ltac:(lra) S). lra. }
  eapply Rle_trans; [exact B|]. unfold E0, D0.
  pose proof (pos_INR k) as K0.
  assert (M1 : (0 <= X * ((1 + u) * (g - (1 + u))))%R). { apply Rmult_le_pos; [exact HX|]. apply Rmult_le_pos; lra. }
  assert (M2 : (0 <= eta * ((1 + u) * (g - 1)))%R). { apply Rmult_le_pos; [lra|]. apply Rmult_le_pos; lra. }
  nra.
Qed.
(** If the computed sum is finite then every number in it was, and the error
    is at most [((1+u)^n - 1)] times the sum of the absolute values, plus
    [n (1+u)^n] half-units of the smallest subnormal for underflow. *)
Lemma fdot_error n x y : (forall k, k < n -> fvalid (x k) = true /\ fvalid (y k) = true) -> fis_finite (fdot n x y) = true ->
  (forall k, k < n -> fis_finite (x k) = true /\ fis_finite (y k) = true) /\
  (Rabs (fR (fdot n x y) - total n (fun k => fR (x k) * fR (y k))) <=
    ((1 + u) ^ n - 1) * total n (fun k => Rabs (fR (x k) * fR (y k))) + INR n * (1 + u) ^ n * eta)%R.
Proof.
  induction n as [|n IH]; intros V F.
  - split; [lia|]. unfold total, fdot. cbn [seq fold_left]. rewrite fR_f0, Rminus_0_r, Rabs_R0. cbn [INR pow]. lra.
  - rewrite fdot_S in F. destruct (fadd_finite _ _ F) as [F1 F2]. destruct (fmul_finite _ _ F2) as [F3 F4].
    destruct (IH (fun k H => V k (Nat.lt_lt_succ_r _ _ H)) F1) as [I1 I2]. destruct (V n ltac:(lia)) as [V1 V2]. split.
    { intros k Hk. destruct (Nat.eq_dec k n) as [->|]; [auto|apply I1; lia]. }
    assert (Vd : fvalid (fdot n x y) = true) by (apply fdot_valid; intros; apply V; lia).
    assert (Vm : fvalid (fmul (x n) (y n)) = true) by now apply fmul_valid.
    pose proof (mul_error _ _ V1 V2 F3 F4 F2) as Em.
    rewrite fdot_S. destruct n as [|n].
    + change (fdot 0 x y) with f0. rewrite fadd_0_l by assumption. cbn [total INR pow]. rewrite !Rplus_0_l.
      eapply Rle_trans; [exact Em|]. pose proof u_pos. pose proof eta_pos. nra.
    + pose proof (add_error _ _ Vd Vm F1 F2 F) as Ea.
      pose proof (step_bound (S n) _ _ _ 0%R 0%R _ _ _ _ _ ltac:(lia) eq_refl (total_pos _ _) (Rabs_pos _) (total_abs _ _) eq_refl I2 Em Ea) as B.
      change (total (S (S n)) ?f) with (total (S n) f + f (S n))%R. rewrite (S_INR (S n)).
      change ((1 + u) ^ S (S n))%R with ((1 + u) * (1 + u) ^ S n)%R. exact B.
Qed.

Lemma nearest_finite v z : nearest_double v z -> (Rabs v < overflow_threshold)%R -> fis_finite z = true.
Proof. intros [_ H] L. destruct (Rlt_dec _ _); [apply H|contradiction]. Qed.
Definition dot_bound n (x y : nat -> f64) : R :=
  ((1 + u) ^ n * total n (fun k => Rabs (fR (x k) * fR (y k))) + INR n * (1 + u) ^ n * eta)%R.
Lemma dot_bound_S n x y : (dot_bound n x y <= dot_bound (S n) x y /\ Rabs (fR (x n) * fR (y n)) <= dot_bound (S n) x y)%R.
Proof.
  unfold dot_bound. change (total (S n) ?f) with (total n f + f n)%R. rewrite S_INR. change ((1 + u) ^ S n)%R with ((1 + u) * (1 + u) ^ n)%R. cbv beta.
  pose proof u_pos. pose proof eta_pos. pose proof (total_pos n (fun k => fR (x k) * fR (y k))%R) as P. pose proof (Rabs_pos (fR (x n) * fR (y n))) as Q.
  pose proof (pos_INR n). pose proof (pow_R1_Rle (1 + u) n ltac:(lra)) as G. set (g := ((1 + u) ^ n)%R) in *. set (A := total n _) in *. set (X := Rabs _) in *.
  assert (G2 : (g <= (1 + u) * g)%R) by nra.
  assert (J1 : (g * A <= (1 + u) * g * A)%R) by (apply Rmult_le_compat_r; assumption).
  assert (J2 : (1 * X <= (1 + u) * g * X)%R) by (apply Rmult_le_compat_r; lra).
  assert (J3 : (0 <= (1 + u) * g * A)%R) by (apply Rmult_le_pos; lra).
  assert (J4 : (0 <= (INR n + 1) * ((1 + u) * g) * eta)%R). { apply Rmult_le_pos; [|lra]. apply Rmult_le_pos; lra. }
  assert (J5 : (INR n * g * eta <= (INR n + 1) * ((1 + u) * g) * eta)%R). { apply Rmult_le_compat_r; [lra|]. apply Rmult_le_compat; lra. }
  split; lra.
Qed.
Lemma fdot_finite n x y : (forall k, k < n -> (fvalid (x k) = true /\ fis_finite (x k) = true) /\ (fvalid (y k) = true /\ fis_finite (y k) = true)) ->
  (dot_bound n x y < overflow_threshold)%R -> fis_finite (fdot n x y) = true.
Proof.
  induction n as [|n IH]; intros V B; [reflexivity|]. destruct (dot_bound_S n x y) as [B1 B2].
  assert (F1 : fis_finite (fdot n x y) = true) by (apply IH; [intros; apply V; lia|lra]).
  destruct (V n ltac:(lia)) as [[V1 X1] [V2 X2]].
  assert (F2 : fis_finite (fmul (x n) (y n)) = true) by (eapply nearest_finite; [now apply fmul_nearest|lra]).
  assert (VV : forall k, k < n -> fvalid (x k) = true /\ fvalid (y k) = true) by (intros k Hk; destruct (V k ltac:(lia)) as [[] []]; auto).
  assert (Vd : fvalid (fdot n x y) = true) by now apply fdot_valid.
  assert (Vm : fvalid (fmul (x n) (y n)) = true) by now apply fmul_valid.
  rewrite fdot_S. apply (nearest_finite _ _ (fadd_nearest _ _ Vd Vm F1 F2)). eapply Rle_lt_trans; [|exact B].
  pose proof (mul_error _ _ V1 V2 X1 X2 F2) as Em. destruct (fdot_error n x y VV F1) as [_ Ed].
  set (s := fR (fdot n x y)) in *. set (p := fR (fmul (x n) (y n))) in *. unfold dot_bound.
  change (total (S n) ?f) with (total n f + f n)%R. rewrite S_INR. change ((1 + u) ^ S n)%R with ((1 + u) * (1 + u) ^ n)%R. cbv beta.
  pose proof (total_abs n (fun k => fR (x k) * fR (y k))%R) as T. cbv beta in T. set (P := total n (fun k => (fR (x k) * fR (y k))%R)) in *.
  set (A := total n (fun k => Rabs (fR (x k) * fR (y k)))%R) in *. set (q := (fR (x n) * fR (y n))%R) in *.
  pose proof u_pos. pose proof eta_pos. pose proof (pow_R1_Rle (1 + u) n ltac:(lra)) as G. set (g := ((1 + u) ^ n)%R) in *.
  pose proof (Rabs_pos q) as Q. pose proof (pos_INR n). assert (A0 : (0 <= A)%R) by apply (total_pos n (fun k => fR (x k) * fR (y k))%R).
  assert (Hs : (Rabs (s + p) <= Rabs (s - P) + Rabs P + (Rabs (p - q) + Rabs q))%R).
  { replace (s + p)%R with ((s - P + P) + (p - q + q))%R by ring. eapply Rle_trans; [apply Rabs_triang|].
    apply Rplus_le_compat; apply Rabs_triang. }
  assert (J0 : (g <= (1 + u) * g)%R) by nra.
  assert (J1 : (g * A <= (1 + u) * g * A)%R) by (apply Rmult_le_compat_r; assumption).
  assert (J2 : ((1 + u) * Rabs q <= (1 + u) * g * Rabs q)%R) by (apply Rmult_le_compat_r; [lra|nra]).
  assert (J5 : ((INR n + 1) * g * eta <= (INR n + 1) * ((1 + u) * g) * eta)%R). { apply Rmult_le_compat_r; [lra|]. apply Rmult_le_compat_l; lra. }
  assert (J6 : (1 * eta <= g * eta)%R) by (apply Rmult_le_compat_r; lra).
  lra.
Qed.

Section Results.
Variable lm : Libm.
Local Instance NF : Num := F64 lm.
Context {En : Env}.
Notation V := (Value NF).
Definition is_double (x : f64) : Prop := fvalid x = true /\ fis_finite x = true.

(** ** C63 *)
Definition real_operations : list (SimpleOp * (R -> R -> R)) :=
  [(OAdd, Rplus); (OSub, Rminus); (OMult, Rmult); (OHiddenMult, Rmult); (ODiv, Rdiv)].
Lemma scalar_op op a b (c : Ctx NF) (x y z : f64) : outcome a c (Ok [@Scalar NF x]) -> outcome b c (Ok [@Scalar NF y]) ->
  op_meaning op (@Scalar NF x) (@Scalar NF y) = Ok [@Scalar NF z] -> outcome (AOp op a b) c (Ok [@Scalar NF z]).
Proof.
  intros Ha Hb E. pose proof (op_outcome_grid [] c op a b _ _ Ha Hb) as H.
  rewrite (grid_one op (fun _ => @Scalar NF z) [@Scalar NF x] (@Scalar NF y)) in H; [apply H; discriminate|].
  intros x' [<-|[]]. exact E.
Qed.
Theorem c63_operation op f a b (c : Ctx NF) (x y : f64) : In (op, f) real_operations ->
  outcome a c (Ok [@Scalar NF x]) -> outcome b c (Ok [@Scalar NF y]) -> is_double x -> is_double y -> (op = ODiv -> fR y <> 0%R) ->
  exists z : f64, outcome (AOp op a b) c (Ok [@Scalar NF z]) /\ nearest_double (f (fR x) (fR y)) z.
Proof.
  intros Hop Ha Hb [Vx Fx] [Vy Fy] D. cbn in Hop. destruct Hop as [E|[E|[E|[E|[E|[]]]]]]; injection E as <- <-.
  - exists (fadd x y). split; [now apply (scalar_op _ a b c x y)|now apply fadd_nearest].
  - exists (fadd x (fmul y fm1)). split; [now apply (scalar_op _ a b c x y)|]. rewrite fmul_m1 by assumption.
    assert (E : fR (fopp y) = (- fR y)%R). { destruct y as [s|s| |s m e]; cbn [fopp SFopp]; unfold fR; cbn [SF2R]; try lra. rewrite <- F2R_Zopp. f_equal. now destruct s. }
    unfold Rminus. rewrite <- E. apply fadd_nearest; [assumption|now apply fopp_valid|assumption|]. now destruct y.
  - exists (fmul x y). split; [now apply (scalar_op _ a b c x y)|now apply fmul_nearest].
  - exists (fmul x y). split; [now apply (scalar_op _ a b c x y)|now apply fmul_nearest].
  - exists (fdiv x y). split; [now apply (scalar_op _ a b c x y)|apply fdiv_nearest; auto].
Qed.
Theorem c63_negation a b (c : Ctx NF) (x y : f64) : outcome a c (Ok [@Scalar NF x]) -> outcome b c (Ok [@Scalar NF y]) -> is_double y ->
  exists z : f64, outcome (AOp ONeg a b) c (Ok [@Scalar NF z]) /\ is_double z /\ fR z = (- fR y)%R.
Proof.
  intros Ha Hb [Vy Fy]. exists (fmul fm1 y). split; [now apply (scalar_op _ a b c x y)|].
  assert (E : fmul fm1 y = fopp y) by (rewrite fmul_comm; now apply fmul_m1). rewrite E. split; [split; [now apply fopp_valid|now destruct y]|].
  destruct y as [s|s| |s m e]; cbn [fopp SFopp]; unfold fR; cbn [SF2R]; try lra. rewrite <- F2R_Zopp. f_equal. now destruct s.
Qed.

(** Dividing by zero is not an error: it gives an infinity, or NaN for 0 / 0. *)
Theorem c63_division_by_zero a b (c : Ctx NF) (x : f64) (sy : bool) : outcome a c (Ok [@Scalar NF x]) -> outcome b c (Ok [@Scalar NF (S754_zero sy : f64)]) ->
  is_double x ->
  outcome (AOp ODiv a b) c (Ok [@Scalar NF (match x with S754_zero _ => S754_nan | _ => S754_infinity (xorb (fsign_neg x) sy) end : f64)]).
Proof.
  intros Ha Hb [Vx Fx]. apply (scalar_op _ a b c x (S754_zero sy) _ Ha Hb). destruct x as [s|s| |s m e]; try discriminate; reflexivity.
Qed.

(** ** C64 *)
(** [z] is a rounded sum of the [n] products [x k * y k]. *)
Definition accurate_sum (n : nat) (x y : nat -> f64) (z : f64) : Prop :=
  fvalid z = true /\
  (fis_finite z = true ->
    (forall k, k < n -> fis_finite (x k) = true /\ fis_finite (y k) = true) /\
    (Rabs (fR z - total n (fun k => fR (x k) * fR (y k))) <=
      ((1 + u) ^ n - 1) * total n (fun k => Rabs (fR (x k) * fR (y k))) + INR n * (1 + u) ^ n * eta)%R) /\
  ((forall k, k < n -> is_double (x k) /\ is_double (y k)) ->
   ((1 + u) ^ n * total n (fun k => Rabs (fR (x k) * fR (y k))) + INR n * (1 + u) ^ n * eta < overflow_threshold)%R -> fis_finite z = true).
Lemma fdot_accurate n x y : (forall k, k < n -> fvalid (x k) = true /\ fvalid (y k) = true) -> accurate_sum n x y (fdot n x y).
Proof. intros H. split; [now apply fdot_valid|]. split; [intros F; now apply fdot_error|apply fdot_finite]. Qed.
Lemma value_op op a b (c : Ctx NF) (x y z : V) : outcome a c (Ok [x]) -> outcome b c (Ok [y]) ->
  op_meaning op x y = Ok [z] -> outcome (AOp op a b) c (Ok [z]).
Proof.
  intros Ha Hb E. pose proof (op_outcome_grid [] c op a b _ _ Ha Hb) as H.
  rewrite (grid_one op (fun _ => z) [x] y) in H; [apply H; discriminate|]. intros x' [<-|[]]. exact E.
Qed.
Definition valid_row (l : list f64) : Prop := Forall (fun x => fvalid x = true) l.
Lemma valid_nth l k : valid_row l -> fvalid (nth k l f0) = true.
Proof.
  intros H. destruct (Nat.lt_ge_cases k (List.length l)) as [L|L]; [|now rewrite nth_overflow].
  unfold valid_row in H. rewrite Forall_forall in H. apply H. now apply nth_In.
Qed.
Lemma valid_nth2 (m : list (list f64)) i k : Forall valid_row m -> fvalid (nth k (nth i m []) f0) = true.
Proof.
  intros H. apply valid_nth. destruct (Nat.lt_ge_cases i (List.length m)) as [L|L]; [|rewrite nth_overflow by lia; constructor].
  rewrite Forall_forall in H. apply H. now apply nth_In.
Qed.
Theorem c64_dot_product op a b (c : Ctx NF) (v w : list f64) : op = OMult \/ op = OHiddenMult ->
  outcome a c (Ok [@Vector NF v]) -> outcome b c (Ok [@Vector NF w]) -> List.length v = List.length w -> valid_row v -> valid_row w ->
  exists z : f64, outcome (AOp op a b) c (Ok [@Scalar NF z]) /\ accurate_sum (List.length v) (fun k => nth k v f0) (fun k => nth k w f0) z.
Proof.
  intros Hop Ha Hb Hl Hv Hw. exists (fdot (List.length v) (fun k => nth k v f0) (fun k => nth k w f0)). split.
  - apply (value_op op a b c _ _ _ Ha Hb). destruct Hop as [-> | ->]; unfold op_meaning, single, mult; rewrite (@vvmult_form NF v w Hl); reflexivity.
  - apply fdot_accurate. intros k Hk. split; now apply valid_nth.
Qed.
Theorem c64_matrix_vector op a b (c : Ctx NF) (m : list (list f64)) (w : list f64) r n : op = OMult \/ op = OHiddenMult ->
  outcome a c (Ok [@Matrix NF m]) -> outcome b c (Ok [@Vector NF w]) -> 0 < r -> shape m r n -> List.length w = n -> Forall valid_row m -> valid_row w ->
  exists z : list f64, outcome (AOp op a b) c (Ok [@Vector NF z]) /\ List.length z = r /\
    forall i, i < r -> accurate_sum n (fun k => nth k (nth i m []) f0) (fun k => nth k w f0) (nth i z f0).
Proof.
  intros Hop Ha Hb Hr Hm Hl Hv Hw. exists (tab r (fun i => fdot n (fun k => nth k (nth i m []) f0) (fun k => nth k w f0))). split; [|split; [apply tab_length|]].
  - apply (value_op op a b c _ _ _ Ha Hb). destruct Hop as [-> | ->]; unfold op_meaning, single, mult; rewrite (@mvmult_form NF m w r n Hr Hm Hl); reflexivity.
  - intros i Hi. rewrite tab_nth by assumption. apply fdot_accurate. intros k Hk. split; [now apply valid_nth2|now apply valid_nth].
Qed.
Theorem c64_matrix_product op a b (c : Ctx NF) (m w : list (list f64)) r n q : op = OMult \/ op = OHiddenMult ->
  outcome a c (Ok [@Matrix NF m]) -> outcome b c (Ok [@Matrix NF w]) -> 0 < r -> 0 < n -> shape m r n -> shape w n q -> Forall valid_row m -> Forall valid_row w ->
  exists z : list (list f64), outcome (AOp op a b) c (Ok [@Matrix NF z]) /\ shape z r q /\
    forall i j, i < r -> j < q -> accurate_sum n (fun k => nth k (nth i m []) f0) (fun k => nth j (nth k w []) f0) (nth j (nth i z []) f0).
Proof.
  intros Hop Ha Hb Hr Hn Hm Hw Vm Vw. exists (tab2 r q (fun i j => fdot n (fun k => nth k (nth i m []) f0) (fun k => nth j (nth k w []) f0))).
  split; [|split; [apply tab2_shape|]].
  - apply (value_op op a b c _ _ _ Ha Hb). destruct Hop as [-> | ->]; unfold op_meaning, single, mult; rewrite (@mmmult_form NF m w r n q Hr Hn Hm Hw); reflexivity.
  - intros i j Hi Hj. unfold tab2. rewrite tab_nth by assumption. rewrite tab_nth by assumption. apply fdot_accurate.
    intros k Hk. split; now apply valid_nth2.
Qed.
End Results.

Module Examples.
Section Ex.
Variable lm : Libm.
Local Instance NF : Num := F64 lm.
Context {En : Env}.
(** 0.1 and 0.2 as doubles, and their computed sum 0.30000000000000004. *)
Definition d1 : f64 := S754_finite false 7205759403792794 (-56).
Definition d2 : f64 := S754_finite false 7205759403792794 (-55).
Definition c0 : Ctx NF := mkCtx [] [].
Example sum_ex : exists z : f64, outcome (AOp OAdd (@AScalar NF d1) (@AScalar NF d2)) c0 (Ok [@Scalar NF z]) /\ nearest_double (fR d1 + fR d2) z.
Proof.
  apply (c63_operation lm OAdd Rplus _ _ c0 d1 d2); [cbn; tauto|apply scalar_outcome|apply scalar_outcome|split; reflexivity|split; reflexivity|discriminate].
Qed.
Example sum_value : fadd d1 d2 = S754_finite false 5404319552844596 (-54).
Proof. reflexivity. Qed.
Example quotient_ex : exists z : f64, outcome (AOp ODiv (@AScalar NF d1) (@AScalar NF d2)) c0 (Ok [@Scalar NF z]) /\ nearest_double (fR d1 / fR d2) z.
Proof.
  apply (c63_operation lm ODiv Rdiv _ _ c0 d1 d2); [cbn; tauto|apply scalar_outcome|apply scalar_outcome|split; reflexivity|split; reflexivity|].
  intros _. unfold fR, d2. cbn [SF2R cond_Zopp]. apply Rgt_not_eq. now apply F2R_gt_0.
Qed.
Example by_zero_ex : outcome (AOp ODiv (@AScalar NF (S754_finite true 4503599627370496 (-52) : f64)) (@AScalar NF (S754_zero false : f64))) c0 (Ok [@Scalar NF (S754_infinity true : f64)]).
Proof. apply (c63_division_by_zero lm _ _ c0 (S754_finite true 4503599627370496 (-52)) false); [apply scalar_outcome|apply scalar_outcome|split; reflexivity]. Qed.
Example dot_ex : exists z : f64, outcome (AOp OMult (ast_from_value (@Vector NF [d1; d2])) (ast_from_value (@Vector NF [d2; d1]))) c0 (Ok [@Scalar NF z]) /\
  accurate_sum 2 (fun k => nth k [d1; d2] f0) (fun k => nth k [d2; d1] f0) z.
Proof.
  apply (c64_dot_product lm OMult _ _ c0 [d1; d2] [d2; d1]); [now left|apply from_value_outcome|apply from_value_outcome|reflexivity| |]; repeat constructor.
Qed.
Example dot_finite_ex : (forall k, k < 2 -> is_double (nth k [d1; d2] f0) /\ is_double (nth k [d2; d1] f0)) /\
  fis_finite (fdot 2 (fun k => nth k [d1; d2] f0) (fun k => nth k [d2; d1] f0)) = true.
Proof. split; [|reflexivity]. intros k Hk. destruct k as [|[|k]]; [repeat split..|lia]. Qed.
Example matrix_ex : exists z : list (list f64), outcome (AOp OHiddenMult (ast_from_value (@Matrix NF [[d1; d2]])) (ast_from_value (@Matrix NF [[d1]; [d2]]))) c0 (Ok [@Matrix NF z]) /\
  shape z 1 1 /\ forall i j, i < 1 -> j < 1 -> accurate_sum 2 (fun k => nth k (nth i [[d1; d2]] []) f0) (fun k => nth j (nth k [[d1]; [d2]] []) f0) (nth j (nth i z []) f0).
Proof.
  apply (c64_matrix_product lm OHiddenMult _ _ c0 [[d1; d2]] [[d1]; [d2]] 1 2 1); [now right|apply from_value_outcome|apply from_value_outcome|lia|lia| | | |]; repeat constructor.
Qed.
End Ex.
End Examples.
