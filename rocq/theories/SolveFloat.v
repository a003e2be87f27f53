(** * SolveFloat: a small Euclidean length bounds every component (binary64). *)
From Coq Require Import List NArith ZArith Bool Lia Reals Lra SpecFloat.
From Flocq Require Import Core BinarySingleNaN.
From Verif Require Import Base F64 Num FloatFacts.
Import ListNotations.

(** Not smaller than the real [t]; NaN and infinity count as large. *)
Definition fge (t : R) (q : f64) : Prop :=
  fvalid q = true /\
  (q = S754_nan \/ q = S754_infinity false \/ (fis_finite q = true /\ (t <= fR q)%R)).

Lemma fge_le t u q : (u <= t)%R -> fge t q -> fge u q.
Proof. intros H [Hv Hq]; split; [exact Hv|]. destruct Hq as [->|[->|[Hf Hq]]]; auto. right; right; split; [exact Hf|lra]. Qed.

Lemma fge_square r a : fvalid r = true -> fis_nan r = true \/ fis_inf r = true \/ (fis_finite r = true /\ (a <= Rabs (fR r))%R) ->
  (0 <= a)%R -> fge (RN (a * a)) (fmul r r).
Proof.
  intros Hv Hc Ha. split; [now apply fmul_valid|]. destruct Hc as [Hn|[Hi|[Hf Hr]]].
  - destruct r; try discriminate. now left.
  - destruct r as [|[|]| |]; try discriminate; right; left; reflexivity.
  - right. pose proof (fmul_spec r r Hv Hv Hf Hf) as H. cbv zeta in H.
    assert (Hle : (RN (a * a) <= RN (fR r * fR r))%R).
    { apply RN_le. replace (fR r * fR r)%R with (Rabs (fR r) * Rabs (fR r))%R.
      - apply Rmult_le_compat; assumption.
      - rewrite <- Rabs_mult. apply Rabs_pos_eq. nra. }
    destruct (Rlt_bool _ _).
    + right. destruct H as [H1 H2]. rewrite H2. auto.
    + left. rewrite H. now rewrite xorb_nilpotent.
Qed.

Lemma fge_one_mul t q : RN t = t -> (0 <= t)%R -> fge t q -> fge t (fmul (f_of_Z 1) q).
Proof.
  intros Ht H0 [Hv Hq].
  assert (H1 : fvalid (f_of_Z 1) = true) by apply f_of_Z_valid.
  assert (E1 : f_of_Z 1 = S754_finite false 4503599627370496 (-52)) by (vm_compute; reflexivity).
  split; [now apply fmul_valid|]. destruct Hq as [->|[->|[Hf Hq]]].
  - left. reflexivity.
  - right; left. reflexivity.
  - right. assert (F1 : fis_finite (f_of_Z 1) = true) by (vm_compute; reflexivity).
    pose proof (fmul_spec _ q H1 Hv F1 Hf) as H. cbv zeta in H.
    assert (R1 : fR (f_of_Z 1) = 1%R). { rewrite E1. unfold fR, SF2R, Defs.F2R; cbn. lra. }
    rewrite R1, Rmult_1_l, RN_id in H by exact Hv.
    rewrite Rlt_bool_true in H by (now apply fR_lt_emax). destruct H as [H2 H3].
    right. rewrite H3. auto.
Qed.

Lemma fge_add t s q : RN t = t -> (0 <= t)%R -> fge t s /\ fge 0 q \/ fge 0 s /\ fge t q -> fge t (fadd s q).
Proof.
  intros Ht H0 H.
  assert (Hs : fvalid s = true) by (destruct H as [[[? _] _]|[[? _] _]]; assumption).
  assert (Hq : fvalid q = true) by (destruct H as [[_ [? _]]|[_ [? _]]]; assumption).
  split; [now apply fadd_valid|].
  assert (Hc : (s = S754_nan \/ s = S754_infinity false \/ fis_finite s = true) /\
               (q = S754_nan \/ q = S754_infinity false \/ fis_finite q = true)).
  { destruct H as [[[_ A] [_ B]]|[[_ A] [_ B]]]; intuition auto. }
  destruct Hc as [[->|[->|Fs]] Hcq]; [left; now destruct q| |].
  { destruct Hcq as [->|[->|Fq]]; [left; reflexivity|right; left; reflexivity|].
    right; left. destruct q; try discriminate; reflexivity. }
  destruct Hcq as [->|[->|Fq]].
  { left. now destruct s. }
  { right; left. destruct s; try discriminate; reflexivity. }
  assert (Hle : (t <= fR s + fR q)%R).
  { destruct H as [[[_ A] [_ B]]|[[_ A] [_ B]]]; (destruct A as [->|[->|[_ A]]]; [discriminate|discriminate|]);
      (destruct B as [->|[->|[_ B]]]; [discriminate|discriminate|]); lra. }
  right. pose proof (fadd_spec s q Hs Hq Fs Fq) as HS. cbv zeta in HS.
  destruct (Rlt_bool _ _).
  - right. destruct HS as [H1 H2]. rewrite H2. split; [exact H1|]. rewrite <- Ht. now apply RN_le.
  - left. destruct HS as [H1 H2]. rewrite H1. 
    destruct (fsign_neg s) eqn:Es; [|reflexivity]. exfalso.
    destruct (fR_sign s) as [S1 _]. destruct (fR_sign q) as [S2 _].
    specialize (S1 Es). symmetry in H2. specialize (S2 H2).
    assert (fR s = 0 /\ fR q = 0)%R as [Z1 Z2] by lra.
    pose proof (fadd_spec s q Hs Hq Fs Fq) as HS'. cbv zeta in HS'.
    rewrite Z1, Z2, Rplus_0_r, RN_0, Rabs_R0, Rlt_bool_true in HS' by apply bpow_gt_0.
    destruct HS' as [HS' _]. rewrite H1 in HS'. discriminate.
Qed.

Lemma fsqrt_spec x : fvalid x = true -> fis_finite x = true -> (0 <= fR x)%R ->
  fis_finite (fsqrt x) = true /\ fR (fsqrt x) = RN (R_sqrt.sqrt (fR x)).
Proof.
  intros Hv. destruct (to_bf x Hv) as [b <-]. rewrite fsqrt_bf, !finite_bf, !fR_bf. intros Hf H0.
  destruct (Bsqrt_correct prec64 emax64 _ _ mode_NE b) as (H1 & H2 & _). split; [|exact H1].
  rewrite H2. destruct b as [s|s| |s m e Hb]; try discriminate; [reflexivity|].
  destruct s; [|reflexivity]. exfalso. revert H0. cbn. unfold Defs.F2R; cbn.
  pose proof (bpow_gt_0 radix2 e). intros Hle.
  assert (IZR (Z.neg m) < 0)%R by (apply IZR_lt; lia). nra.
Qed.

Lemma fge_sqrt t q : (0 <= t)%R -> fge t q -> fge (RN (R_sqrt.sqrt t)) (fsqrt q).
Proof.
  intros H0 [Hv Hq]. split; [now apply fsqrt_valid|]. destruct Hq as [->|[->|[Hf Hq]]].
  - left; reflexivity.
  - right; left; reflexivity.
  - right; right. destruct (fsqrt_spec q Hv Hf) as [H1 H2]; [lra|]. split; [exact H1|].
    rewrite H2. apply RN_le. now apply R_sqrt.sqrt_le_1_alt.
Qed.

Lemma fge_not_below t q u : fge t q -> fvalid u = true -> fis_finite u = true -> (fR u <= t)%R -> fltb q u = false.
Proof.
  intros [Hv Hq] Hu Fu Hle. destruct Hq as [->|[->|[Hf Hq]]].
  - now destruct u.
  - destruct u as [|[|]| |[|]]; try discriminate; reflexivity.
  - destruct (fltb q u) eqn:E; [|reflexivity]. apply fltb_spec in E; auto. lra.
Qed.

Lemma fge_zero_square r : fvalid r = true -> fge 0 (fmul r r).
Proof.
  intros Hv. replace 0%R with (RN (0 * 0)) by (rewrite Rmult_0_l; apply RN_0).
  apply fge_square; [exact Hv| |lra].
  destruct r; cbn; auto; right; right; split; auto; apply Rabs_pos.
Qed.

Section Norm.
Variable lm : Libm.
Local Instance NF : Num := F64 lm.

Lemma powi2 (r : f64) : @npowi NF r 2 = fmul (f_of_Z 1) (fmul r r).
Proof. reflexivity. Qed.

Lemma norm_component (eps : f64) (rs : list f64) (r : f64) :
  fvalid eps = true -> fis_finite eps = true -> (0 <= fR eps)%R ->
  fltb (fsqrt (fmul eps eps)) eps = false -> fis_finite (fmul eps eps) = true ->
  Forall (fun r => fvalid r = true) rs ->
  fltb (fsqrt (fold_left (fun s r => fadd s (@npowi NF r 2)) rs (f_of_Z 0))) eps = true ->
  In r rs -> fltb (fabs r) eps = true.
Proof.
  intros Hev Hef He0 Hsq Hsqf Hv Hlt Hin.
  destruct (fltb (fabs r) eps) eqn:E; [reflexivity|]. exfalso.
  set (a := fR eps) in *. set (t := RN (a * a)).
  assert (Ht : RN t = t).
  { pose proof (fmul_spec eps eps Hev Hev Hef Hef) as H. cbv zeta in H. fold a in H. fold t in H.
    destruct (Rlt_bool _ _); [|rewrite H in Hsqf; discriminate]. destruct H as [_ H]. rewrite <- H at 1 2.
    rewrite RN_id; [reflexivity|now apply fmul_valid]. }
  assert (Ht0 : (0 <= t)%R). { unfold t. rewrite <- RN_0. apply RN_le. nra. }
  assert (Hu : (a <= RN (R_sqrt.sqrt t))%R).
  { assert (Hm : fvalid (fmul eps eps) = true) by now apply fmul_valid.
    assert (Em : fR (fmul eps eps) = t).
    { pose proof (fmul_spec eps eps Hev Hev Hef Hef) as H. cbv zeta in H. fold a in H. fold t in H.
      destruct (Rlt_bool _ _); [now destruct H|rewrite H in Hsqf; discriminate]. }
    destruct (fsqrt_spec _ Hm Hsqf) as [S1 S2]; [now rewrite Em|]. rewrite Em in S2. rewrite <- S2.
    apply Rnot_lt_le. intros Hl. apply Bool.diff_false_true. rewrite <- Hsq.
    apply fltb_spec; auto. now apply fsqrt_valid. }
  assert (Hr : fvalid r = true) by (rewrite Forall_forall in Hv; auto).
  assert (Hbig : fge t (@npowi NF r 2)).
  { rewrite powi2. apply fge_one_mul; auto. apply fge_square; auto.
    destruct (fis_finite r) eqn:Fr; [|destruct r; cbn in *; auto; discriminate].
    right; right. split; [reflexivity|].
    apply Rnot_lt_le. intros Hl. apply Bool.diff_false_true. rewrite <- E.
    assert (HR : fR (fabs r) = Rabs (fR r)).
    { destruct (to_bf r Hr) as [b Hb]. rewrite <- Hb, fabs_bf, !fR_bf. apply B2R_Babs. }
    apply fltb_spec; auto; [now apply fabs_valid|now destruct r|now rewrite HR]. }
  assert (Hz : fge 0 (f_of_Z 0)).
  { split; [apply f_of_Z_valid|]. right; right. split; [reflexivity|]. cbn. lra. }
  assert (Hacc : forall l s, Forall (fun r => fvalid r = true) l -> (fge t s \/ fge 0 s /\ In r l) ->
             fge t (fold_left (fun s r => fadd s (@npowi NF r 2)) l s)).
  { clear -Hbig Ht Ht0. induction l as [|x l IH]; intros s Hv H; cbn [fold_left].
    - destruct H as [H|[_ []]]. exact H.
    - inversion Hv as [|? ? Hx Hl]; subst. apply IH; [exact Hl|].
      assert (Hx0 : fge 0 (@npowi NF x 2)).
      { rewrite powi2. apply fge_one_mul; [apply RN_0|lra|]. now apply fge_zero_square. }
      destruct H as [H|[H [<-|Hi]]].
      + left. apply fge_add; auto.
      + left. apply fge_add; auto.
      + right. split; [|exact Hi]. apply fge_add; [apply RN_0|lra|]. auto. }
  specialize (Hacc rs _ Hv (or_intror (conj Hz Hin))).
  apply fge_sqrt in Hacc; [|exact Ht0].
  rewrite (fge_not_below _ _ eps Hacc Hev Hef Hu) in Hlt. discriminate.
Qed.
End Norm.
