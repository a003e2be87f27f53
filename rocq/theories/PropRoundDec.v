(** * PropRoundDec: C84 - Value::round in binary64. *)
From Coq Require Import List NArith ZArith Bool Lia Arith SpecFloat Reals Lra.
From Flocq Require Import Core Relative IEEE754.BinarySingleNaN.
From Verif Require Import Base F64 Num Types FloatFacts FloatLaws FloatSqrt PrintFloat PropNumber.
Import ListNotations.
Local Open Scope Z_scope.

Section Floats.
Variable lm : Libm.
Local Instance NF : Num := F64 lm.

(** ** 10^p, for at most 22 decimals, is a double. *)
Lemma pow10_spec p : 0 <= p <= 22 -> let P := @pow10 NF p in
  fvalid P = true /\ fis_finite P = true /\ fsign_neg P = false /\ fR P = IZR (10 ^ p).
Proof.
  intros Hp. assert (K : forallb (fun k => match @pow10 NF (Z.of_nat k) with
      | S754_finite false m e => fvalid (S754_finite false m e) && (Z.pos m * 2 ^ Z.max e 0 =? 10 ^ Z.of_nat k * 2 ^ Z.max (- e) 0)
      | _ => false end) (seq 0 23) = true) by (vm_compute; reflexivity).
  rewrite forallb_forall in K. specialize (K (Z.to_nat p)). rewrite Z2Nat.id in K by lia.
  assert (I : In (Z.to_nat p) (seq 0 23)) by (apply in_seq; lia). apply K in I. clear K. cbv zeta.
  destruct (@pow10 NF p) as [s|s| |s m e]; try discriminate. destruct s; try discriminate. apply andb_true_iff in I as [V E].
  split; [exact V|]. split; [reflexivity|]. split; [reflexivity|]. apply Z.eqb_eq in E.
  unfold fR, SF2R, F2R. cbn [Fnum Fexp cond_Zopp]. destruct (Z.le_gt_cases 0 e) as [He|He].
  - rewrite (Z.max_l e 0), (Z.max_r (- e) 0), Z.mul_1_r in E by lia. rewrite <- E, mult_IZR. f_equal. symmetry. apply (IZR_Zpower radix2). exact He.
  - rewrite (Z.max_r e 0), (Z.max_l (- e) 0), Z.mul_1_r in E by lia. rewrite E, mult_IZR, (IZR_Zpower radix2) by lia.
    rewrite Rmult_assoc, <- bpow_plus. replace (- e + e) with 0 by lia. cbn. ring.
Qed.
Lemma pow10_pos p : 0 <= p -> (1 <= IZR (10 ^ p))%R.
Proof. intros. apply (IZR_le 1). assert (0 < 10 ^ p) by (apply Z.pow_pos_nonneg; lia). lia. Qed.

Notation finite x := (fvalid x = true /\ fis_finite x = true).

Lemma round_sign x P : fvalid x = true -> fvalid P = true -> fis_finite P = true -> fsign_neg P = false -> (fR P <> 0)%R -> fis_finite (fmul x P) = true ->
  fis_finite (fdiv (fround (fmul x P)) P) = true ->
  fsign_neg (fdiv (fround (fmul x P)) P) = fsign_neg x.
Proof.
  intros Vx VP FP SP NP Fm Fd. pose proof (fmul_valid x P Vx VP) as Vm.
  destruct (fround_spec _ Vm Fm) as (V1 & F1 & S1 & _).
  rewrite fdiv_sign, SP, xorb_false_r, S1, fmul_sign, SP, xorb_false_r by (auto using finite_not_nan). reflexivity.
Qed.

Section Dec.
Variables (x : f64) (p : Z).
Hypothesis (Vx : fvalid x = true) (Fx : fis_finite x = true) (Hp : 0 <= p <= 22).
Notation T := (IZR (10 ^ p)).
Notation r := (@round_num NF p x).
Hypothesis Hb : (Rabs (fR x) * T <= IZR (10 ^ 15 - 1))%R.

Lemma mul_finite : fis_finite (fmul x (@pow10 NF p)) = true.
Proof.
  destruct (pow10_spec p Hp) as (VP & FP & SP & EP). pose proof (fmul_spec x (@pow10 NF p) Vx VP Fx FP) as S. cbv zeta in S. rewrite EP in S.
  pose proof (pow10_pos p ltac:(lia)) as PT.
  assert (By : (Rabs (RN (fR x * T)) <= IZR (10 ^ 15 - 1))%R) by (apply RN_abs_le; [split; [discriminate|reflexivity]|rewrite Rabs_mult, (Rabs_pos_eq T) by lra; exact Hb]).
  pose proof emax_big as EB. assert (L15 : (IZR (10 ^ 15 - 1) < IZR (10 ^ 15))%R) by (apply IZR_lt; lia).
  rewrite Rlt_bool_true in S by lra. apply S.
Qed.
Lemma dec_spec : finite r /\ fsign_neg r = fsign_neg x /\
  exists M : Z, Z.abs M < 10 ^ 15 /\ fR r = RN (IZR M / T) /\
    (Rabs (IZR M - fR x * T) <= / 2 + / 9007199254740992 * Rabs (fR x * T))%R.
Proof.
  destruct (pow10_spec p Hp) as (VP & FP & SP & EP). pose proof (pow10_pos p ltac:(lia)) as PT.
  destruct (round_dec_spec x _ p Vx Fx VP FP ltac:(lia) EP Hb) as (Vr & Fr & H). cbv zeta in *.
  unfold round_num. change (@ndiv NF) with fdiv. change (@nround NF) with fround. change (@nmul NF) with fmul.
  split; [split; assumption|]. split; [|exact H]. apply round_sign; auto; [lra|exact mul_finite].
Qed.
End Dec.

Lemma RN_of_nearest v x y : fvalid y = true -> fis_finite y = true -> fR y = RN v -> fis_finite x = true -> nearest_double v x -> fR x = RN v.
Proof.
  intros Vy Fy Ey Fx [Vx HN]. destruct (Rlt_dec _ _) as [_|N]; [|now rewrite HN in Fx]. destruct HN as (_ & N1 & N2).
  pose proof (RN_near v) as [Gr Hn].
  assert (D : Rabs (fR y - v) = Rabs (fR x - v)).
  { apply Rle_antisym; [rewrite Ey; apply Hn; now apply fR_format|now apply N1]. }
  destruct (N2 y Vy Fy D) as [H|H]; [congruence|].
  assert (Px : Rnd_N_pt (generic_format radix2 fexp64) v (fR x)).
  { split; [now apply fR_format|]. intros g Hg. rewrite <- D, Ey. now apply Hn. }
  assert (HE : Rnd_NE_pt radix2 fexp64 v (fR x)).
  { split; [exact Px|]. left. destruct x as [s|s| |s m e]; try discriminate.
    - exists (Float radix2 0 (fexp64 (mag radix2 0))). split; [unfold fR; cbn; now rewrite F2R_0|]. split; [apply canonical_0|reflexivity].
    - exists (Float radix2 (cond_Zopp s (Z.pos m)) e). split; [reflexivity|]. split; [|cbn [Fnum]; destruct s; exact H].
      apply canonical_canonical_mantissa. unfold fvalid in Vx. cbn in Vx. apply andb_true_iff in Vx. apply Vx. }
  pose proof (RN_even v) as HE'.
  assert (P53 : Prec_gt_0 prec64) by reflexivity.
  assert (Ev : Exists_NE radix2 (FLT_exp (3 - emax64 - prec64) prec64)) by (apply exists_NE_FLT; right; reflexivity).
  pose proof (Rnd_NE_pt_monotone radix2 (FLT_exp (3 - emax64 - prec64) prec64)) as Mo.
  apply Rle_antisym; eapply Mo; try eassumption; apply Rle_refl.
Qed.

(** ** The statements *)
(** [r] is [x] rounded to [p] decimals. *)
Definition rounds_to (p : Z) (x r : f64) : Prop := @value_round NF p (Scalar x) = Scalar r.
Lemma rounds_inv p x r : rounds_to p x r -> r = @round_num NF p x.
Proof. intros H. now injection H. Qed.

(** The result is the double nearest to a decimal [M / 10^p]; [M] is within
    1/2 of [x * 10^p], up to the error of one multiplication. *)
Theorem c84_nearest p x r : finite x -> 0 <= p <= 22 -> (Rabs (fR x) * IZR (10 ^ p) <= IZR (10 ^ 15 - 1))%R -> rounds_to p x r ->
  exists M : Z, nearest_double (IZR M / IZR (10 ^ p)) r /\
    (Rabs (IZR M - fR x * IZR (10 ^ p)) <= / 2 + / 2 ^ 53 * Rabs (fR x * IZR (10 ^ p)))%R.
Proof.
  intros [Vx Fx] Hp Hb ->%rounds_inv. destruct (dec_spec x p Vx Fx Hp Hb) as ([V F] & _ & M & BM & E & C).
  exists M. split; [|now replace (/ 2 ^ 53)%R with (/ 9007199254740992)%R by (cbn; lra)]. split; [exact V|]. destruct (Rlt_dec _ _) as [_|N].
  - split; [exact F|]. now apply nearest_of_RN.
  - exfalso. apply N. clear N. apply Rle_lt_trans with (IZR (10 ^ 15)).
    + pose proof (pow10_pos p ltac:(lia)) as PT. unfold Rdiv. rewrite Rabs_mult, (Rabs_pos_eq (/ _)) by (apply Rlt_le, Rinv_0_lt_compat; lra).
      rewrite <- (Rmult_1_r (IZR (10 ^ 15))). apply Rmult_le_compat; [apply Rabs_pos|apply Rlt_le, Rinv_0_lt_compat; lra| |].
      * rewrite <- abs_IZR. apply IZR_le. lia.
      * rewrite <- Rinv_1. apply Rinv_le; lra.
    + unfold overflow_threshold. apply IZR_lt. reflexivity.
Qed.

Lemma RN_err_dec M p : 0 <= p <= 22 -> Z.abs M < 10 ^ 15 -> (Rabs (RN (IZR M / IZR (10 ^ p)) - IZR M / IZR (10 ^ p)) <= / 9007199254740992 * Rabs (IZR M / IZR (10 ^ p)))%R.
Proof.
  intros Hp BM. destruct (Z.eq_dec M 0) as [->|N].
  - replace (0 / IZR (10 ^ p))%R with 0%R by (unfold Rdiv; ring). rewrite RN_0, Rminus_0_r, Rabs_R0. lra.
  - apply RN_error. pose proof (pow10_pos p ltac:(lia)) as PT.
    assert (H22 : (IZR (10 ^ p) <= IZR (10 ^ 22))%R) by (apply IZR_le, Z.pow_le_mono_r; lia).
    apply Rle_trans with (/ IZR (10 ^ p))%R.
    + apply Rle_trans with (/ IZR (10 ^ 22))%R; [|apply Rinv_le; lra].
      apply Rle_trans with (bpow radix2 (-80)); [apply bpow_le; lia|]. rewrite (bpow_opp _ 80).
      apply Rinv_le; [apply (IZR_lt 0); reflexivity|]. change (bpow radix2 80) with (IZR (2 ^ 80)). apply IZR_le. now vm_compute.
    + unfold Rdiv. rewrite Rabs_mult, (Rabs_pos_eq (/ _)) by (apply Rlt_le, Rinv_0_lt_compat; lra).
      rewrite <- (Rmult_1_l (/ _)) at 1. apply Rmult_le_compat_r; [apply Rlt_le, Rinv_0_lt_compat; lra|]. rewrite <- abs_IZR. apply (IZR_le 1). lia.
Qed.

(** At most half a unit of the last decimal away, up to rounding. *)
Theorem c84_error p x r : finite x -> 0 <= p <= 22 -> (Rabs (fR x) * IZR (10 ^ p) <= IZR (10 ^ 15 - 1))%R -> rounds_to p x r ->
  (Rabs (fR r - fR x) <= (/ 2 + / 2 ^ 53) / IZR (10 ^ p) + 3 * / 2 ^ 53 * Rabs (fR x))%R.
Proof.
  intros [Vx Fx] Hp Hb ->%rounds_inv. destruct (dec_spec x p Vx Fx Hp Hb) as ([V F] & _ & M & BM & E & C).
  pose proof (RN_err_dec M p Hp BM) as R. rewrite <- E in R. pose proof (pow10_pos p ltac:(lia)) as PT.
  replace (/ 2 ^ 53)%R with (/ 9007199254740992)%R by (cbn; lra).
  set (u := (/ 9007199254740992)%R) in *. assert (U : (0 < u < / 1000)%R) by (unfold u; lra).
  set (T := IZR (10 ^ p)) in *. assert (IT : (0 < / T)%R) by (apply Rinv_0_lt_compat; lra).
  set (X := fR x) in *. set (m := IZR M) in *.
  assert (C' : (Rabs (m / T - X) <= / 2 * / T + u * Rabs X)%R).
  { replace (m / T - X)%R with ((m - X * T) * / T)%R by (field; lra). rewrite Rabs_mult, (Rabs_pos_eq (/ T)) by lra.
    apply Rle_trans with ((/ 2 + u * Rabs (X * T)) * / T)%R; [apply Rmult_le_compat_r; lra|].
    rewrite (Rabs_mult X), (Rabs_pos_eq T) by lra. apply Req_le. field. lra. }
  assert (B : (Rabs (m / T) <= / 2 * / T + (1 + u) * Rabs X)%R).
  { replace (m / T)%R with ((m / T - X) + X)%R by ring. eapply Rle_trans; [apply Rabs_triang|]. lra. }
  replace (fR (@round_num NF p x) - X)%R with ((fR (@round_num NF p x) - m / T) + (m / T - X))%R by ring.
  eapply Rle_trans; [apply Rabs_triang|]. pose proof (Rabs_pos X) as PX.
  assert (u * Rabs (m / T) <= u * (/ 2 * / T + (1 + u) * Rabs X))%R by (apply Rmult_le_compat_l; lra).
  assert (u * (u * Rabs X) <= u * (1 * Rabs X))%R by (apply Rmult_le_compat_l; [lra|apply Rmult_le_compat_r; lra]).
  assert (0 <= u * / T)%R by (apply Rmult_le_pos; lra).
  unfold Rdiv in *. replace (u * (/ 2 * / T + (1 + u) * Rabs X))%R with (/ 2 * (u * / T) + u * Rabs X + u * (u * Rabs X))%R in * by ring. lra.
Qed.

(** A double that is nearest to a decimal with [p] places is not changed. *)
Lemma decimal_double k p : 0 <= p <= 22 -> Z.abs k < 2 ^ 53 -> exists y, fvalid y = true /\ fis_finite y = true /\ fR y = RN (IZR k / IZR (10 ^ p)).
Proof.
  intros Hp Hk. destruct (pow10_spec p Hp) as (VP & FP & SP & EP). pose proof (pow10_pos p ltac:(lia)) as PT.
  destruct (Z.eq_dec k 0) as [->|N].
  - exists f0. split; [reflexivity|]. split; [reflexivity|]. replace (0 / IZR (10 ^ p))%R with 0%R by (unfold Rdiv; ring). now rewrite RN_0.
  - destruct (normalize_exact k false Hk N) as (V & F & E & _). set (z := SpecFloat.binary_normalize prec64 emax64 k 0 false) in *.
    exists (fdiv z (@pow10 NF p)). split; [now apply fdiv_valid|].
    pose proof (fdiv_spec z (@pow10 NF p) V VP F ltac:(rewrite EP; lra)) as S. cbv zeta in S. rewrite EP, E in S.
    rewrite Rlt_bool_true in S; [exact S|].
    apply Rle_lt_trans with (IZR (2 ^ 53 - 1)); [|apply Rlt_trans with (bpow radix2 53); [|apply bpow_lt; reflexivity]; change (bpow radix2 53) with (IZR (2 ^ 53)); apply IZR_lt; lia].
    apply RN_abs_le; [lia|]. unfold Rdiv. rewrite Rabs_mult, (Rabs_pos_eq (/ _)) by (apply Rlt_le, Rinv_0_lt_compat; lra).
    rewrite <- (Rmult_1_r (IZR (2 ^ 53 - 1))). apply Rmult_le_compat; [apply Rabs_pos|apply Rlt_le, Rinv_0_lt_compat; lra| |].
    + rewrite <- abs_IZR. apply IZR_le. lia.
    + rewrite <- Rinv_1. apply Rinv_le; lra.
Qed.
Lemma fixed_RN p x k : finite x -> 0 <= p <= 22 -> Z.abs k <= 10 ^ 15 - 2 -> fR x = RN (IZR k / IZR (10 ^ p)) -> @round_num NF p x = x.
Proof.
  intros [Vx Fx] Hp Hk ER. pose proof (pow10_pos p ltac:(lia)) as PT.
  pose proof (RN_err_dec k p Hp ltac:(lia)) as R. rewrite <- ER in R.
  set (T := IZR (10 ^ p)) in *. assert (IT : (0 < / T)%R) by (apply Rinv_0_lt_compat; lra).
  assert (KB : (Rabs (IZR k) <= IZR (10 ^ 15 - 2))%R) by (rewrite <- abs_IZR; now apply IZR_le).
  set (u := (/ 9007199254740992)%R) in *. assert (Eu : u = (/ 9007199254740992)%R) by reflexivity.
  assert (D : (Rabs (fR x * T - IZR k) <= u * Rabs (IZR k))%R).
  { replace (fR x * T - IZR k)%R with ((fR x - IZR k / T) * T)%R by (field; lra). rewrite Rabs_mult, (Rabs_pos_eq T) by lra.
    apply Rle_trans with (u * Rabs (IZR k / T) * T)%R; [apply Rmult_le_compat_r; lra|].
    unfold Rdiv. rewrite Rabs_mult, (Rabs_pos_eq (/ T)) by lra. apply Req_le. field. lra. }
  assert (Q : (u * Rabs (IZR k) <= / 8)%R).
  { apply Rle_trans with (u * IZR (10 ^ 15 - 2))%R; [apply Rmult_le_compat_l; [rewrite Eu; lra|exact KB]|]. rewrite Eu. change (10 ^ 15 - 2) with 999999999999998. lra. }
  assert (A : (Rabs (fR x * T) <= IZR (10 ^ 15 - 2) + / 8)%R).
  { replace (fR x * T)%R with ((fR x * T - IZR k) + IZR k)%R by ring. eapply Rle_trans; [apply Rabs_triang|]. lra. }
  assert (Hb : (Rabs (fR x) * IZR (10 ^ p) <= IZR (10 ^ 15 - 1))%R).
  { fold T. rewrite Rabs_mult, (Rabs_pos_eq T) in A by lra. change (10 ^ 15 - 2) with 999999999999998 in A. change (10 ^ 15 - 1) with 999999999999999. lra. }
  destruct (dec_spec x p Vx Fx Hp Hb) as ([V F] & S & M & BM & E & C). fold u T in C, E.
  assert (Q2 : (u * Rabs (fR x * T) <= / 8)%R).
  { apply Rle_trans with (u * (IZR (10 ^ 15 - 2) + / 8))%R; [apply Rmult_le_compat_l; [rewrite Eu; lra|exact A]|]. rewrite Eu. change (10 ^ 15 - 2) with 999999999999998. lra. }
  assert (M = k); [|subst M; apply f_ext; auto; now rewrite E, ER].
  assert (Z.abs (M - k) < 1); [|lia]. apply lt_IZR. rewrite abs_IZR, minus_IZR.
  replace (IZR M - IZR k)%R with ((IZR M - fR x * T) + (fR x * T - IZR k))%R by ring. eapply Rle_lt_trans; [apply Rabs_triang|]. lra.
Qed.
Theorem c84_fixed p x r k : finite x -> 0 <= p <= 22 -> Z.abs k <= 10 ^ 15 - 2 ->
  nearest_double (IZR k / IZR (10 ^ p)) x -> rounds_to p x r -> r = x.
Proof.
  intros [Vx Fx] Hp Hk HN ->%rounds_inv. destruct (decimal_double k p Hp ltac:(lia)) as (y & Vy & Fy & Ey).
  apply (fixed_RN p x k); auto. now apply (RN_of_nearest _ x y).
Qed.

(** Rounding twice is rounding once. *)
Theorem c84_idempotent p x r : finite x -> 0 <= p <= 22 -> (Rabs (fR x) * IZR (10 ^ p) <= IZR (10 ^ 15 - 3))%R -> rounds_to p x r -> rounds_to p r r.
Proof.
  intros [Vx Fx] Hp Hb ->%rounds_inv. pose proof (pow10_pos p ltac:(lia)) as PT.
  change (10 ^ 15 - 3) with 999999999999997 in Hb.
  destruct (dec_spec x p Vx Fx Hp) as ([V F] & _ & M & BM & E & C); [change (10 ^ 15 - 1) with 999999999999999; lra|].
  unfold rounds_to. cbn [value_round]. f_equal. apply (fixed_RN p _ M); auto.
  assert (A : (Rabs (fR x * IZR (10 ^ p)) <= 999999999999997)%R) by (rewrite Rabs_mult, (Rabs_pos_eq (IZR (10 ^ p))) by lra; exact Hb).
  assert (Z.abs M < 999999999999998); [|lia]. apply lt_IZR. rewrite abs_IZR.
  replace (IZR M) with ((IZR M - fR x * IZR (10 ^ p)) + fR x * IZR (10 ^ p))%R by ring. eapply Rle_lt_trans; [apply Rabs_triang|]. lra.
Qed.

(** ** No decimals: the nearest whole number, halves away from zero, for every
    finite double. *)
Lemma round_0 x : fvalid x = true -> @round_num NF 0 x = fround x.
Proof.
  intros V. unfold round_num. change (@ndiv NF) with fdiv. change (@nround NF) with fround. change (@nmul NF) with fmul.
  assert (E : @pow10 NF 0 = f1) by (vm_compute; reflexivity). rewrite E, fmul_1_r by assumption. apply fdiv_1_r.
  destruct (fis_finite x) eqn:F; [now apply fround_spec|]. now destruct x.
Qed.
Lemma fround_half x : finite x -> exists z, fR (fround x) = IZR z /\ (Rabs (IZR z - fR x) <= / 2)%R /\ (Rabs (IZR z - fR x) = / 2 -> Rabs (fR x) < Rabs (IZR z))%R.
Proof.
  intros [Hv Hf]. destruct (fround_spec x Hv Hf) as (V & F & S & z & E & B). exists z. split; [exact E|]. split; [exact B|]. intros Ht.
  destruct x as [s|s| |s m e]; try discriminate.
  - unfold fR in *. cbn in E, Ht. rewrite <- E in Ht. rewrite Rminus_0_r, Rabs_R0 in Ht. lra.
  - cbn [fround] in E. destruct (Z.ltb_spec e 0) as [He|He].
    2:{ rewrite <- E, Rminus_diag_eq, Rabs_R0 in Ht by reflexivity. lra. }
    set (d := 2 ^ (- e)) in *. assert (Hd : 2 <= d).
    { unfold d. replace (- e) with (Z.succ (- e - 1)) by lia. rewrite Z.pow_succ_r by lia. assert (0 < 2 ^ (- e - 1)) by (apply Z.pow_pos_nonneg; lia). lia. }
    set (q := (2 * Z.pos m + d) / (2 * d)) in *.
    pose proof (Z.div_mod (2 * Z.pos m + d) (2 * d) ltac:(lia)) as DM. pose proof (Z.mod_pos_bound (2 * Z.pos m + d) (2 * d) ltac:(lia)) as MB. fold q in DM.
    assert (Q0 : 0 <= q) by (apply Z.div_pos; lia). assert (Qm : q <= Z.pos m) by nia.
    assert (Hm : Z.pos m < 2 ^ 53) by (apply (valid_bounds s m e) in Hv; tauto).
    assert (Pd : (2 <= IZR d)%R) by (apply IZR_le; lia).
    assert (A : Rabs (fR (S754_finite s m e)) = (IZR (Z.pos m) / IZR d)%R).
    { unfold fR, SF2R. rewrite <- F2R_Zabs. unfold F2R. cbn [Fnum Fexp]. replace (Z.abs (cond_Zopp s (Z.pos m))) with (Z.pos m) by now destruct s.
      unfold Rdiv, d. f_equal. replace e with (- (- e)) at 1 by lia. rewrite bpow_opp. f_equal. symmetry. apply (IZR_Zpower radix2). lia. }
    assert (Ez : Z.abs z = q).
    { clearbody q. destruct q as [|q|q]; [| |lia].
      - unfold fR in E. cbn in E. apply (eq_IZR 0) in E. now subst.
      - destruct (normalize_exact (if s then Z.neg q else Z.pos q) s) as (_ & _ & N3 & _); [destruct s; cbn; lia|destruct s; discriminate|].
        rewrite N3 in E. apply eq_IZR in E. subst z. now destruct s. }
    rewrite A, <- abs_IZR, Ez.
    assert (G : (IZR q - IZR (Z.pos m) / IZR d > - / 2)%R).
    { assert ((2 * IZR q * IZR d > 2 * IZR (Z.pos m) - IZR d)%R) by (rewrite <- !mult_IZR, <- minus_IZR; apply IZR_lt; lia).
      apply Rmult_lt_reg_r with (2 * IZR d)%R; [lra|]. replace ((IZR q - IZR (Z.pos m) / IZR d) * (2 * IZR d))%R with (2 * IZR q * IZR d - 2 * IZR (Z.pos m))%R by (field; lra). lra. }
    (* the signs agree, so the difference of the magnitudes is 1/2 *)
    assert (H : (Rabs (IZR z - fR (S754_finite s m e)) = Rabs (IZR q - IZR (Z.pos m) / IZR d))%R).
    { rewrite <- A, <- Ez, abs_IZR. pose proof (fR_sign (S754_finite s m e)) as [S1 S2]. pose proof (fR_sign (fround (S754_finite s m e))) as [S3 S4].
      rewrite S in S3, S4. assert (E' : fR (fround (S754_finite s m e)) = IZR z).
      { cbn [fround]. destruct (Z.ltb_spec e 0); [exact E|lia]. }
      rewrite E' in S3, S4. destruct (fsign_neg (S754_finite s m e)).
      - specialize (S1 eq_refl). specialize (S3 eq_refl). rewrite (Rabs_left1 (IZR z)), (Rabs_left1 (fR _)) by assumption.
        rewrite <- (Rabs_Ropp (- _ - _)). f_equal. ring.
      - specialize (S2 eq_refl). specialize (S4 eq_refl). rewrite (Rabs_pos_eq (IZR z)), (Rabs_pos_eq (fR _)) by assumption. reflexivity. }
    rewrite H in Ht. unfold Rabs in Ht. destruct (Rcase_abs _); lra.
Qed.
Theorem c84_whole x r : finite x -> rounds_to 0 x r ->
  finite r /\ exists z, fR r = IZR z /\ (Rabs (IZR z - fR x) <= / 2)%R /\ (Rabs (IZR z - fR x) = / 2 -> Rabs (fR x) < Rabs (IZR z))%R.
Proof.
  intros [V F] ->%rounds_inv. rewrite round_0 by assumption. destruct (fround_spec x V F) as (V' & F' & _). split; [split; assumption|]. now apply fround_half.
Qed.
Theorem c84_whole_idempotent x r : finite x -> rounds_to 0 x r -> rounds_to 0 r r.
Proof.
  intros [V F] ->%rounds_inv. rewrite round_0 by assumption. destruct (fround_spec x V F) as (V' & F' & _ & z & E & _).
  unfold rounds_to. cbn [value_round]. f_equal. rewrite round_0 by assumption.
  destruct (fround_spec _ V' F') as (V2 & F2 & S2 & z' & E' & B). apply f_ext; auto. rewrite E', E. f_equal. rewrite E, <- minus_IZR, <- abs_IZR in B.
  assert (Z.abs (z' - z) < 1); [|lia]. apply lt_IZR. lra.
Qed.

(** ** Rounding is odd: -x rounds to the opposite of what x rounds to, for every
    double (also infinities and zeros, and where the product overflows). *)
Lemma fround_opp x : fround (fopp x) = fopp (fround x).
Proof.
  destruct x as [s|s| |s m e]; try reflexivity. change (fopp (S754_finite s m e)) with (S754_finite (negb s) m e). cbn [fround].
  destruct (e <? 0); [|reflexivity]. destruct ((2 * Z.pos m + 2 ^ (- e)) / (2 * 2 ^ (- e))) as [|q|q]; [reflexivity| |reflexivity].
  rewrite (normalize_opp _ 0 s (negb s)) by (destruct s; discriminate). now destruct s.
Qed.
Theorem c84_odd p x r : rounds_to p x r -> rounds_to p (fopp x) (fopp r).
Proof.
  intros ->%rounds_inv. unfold rounds_to. cbn [value_round]. f_equal. unfold round_num.
  change (@ndiv NF) with fdiv. change (@nround NF) with fround. change (@nmul NF) with fmul. now rewrite fmul_opp_l, fround_opp, fdiv_opp_l.
Qed.

(** ** Rounding respects the order, for all doubles. *)
(** The order of doubles as an order of reals: infinities at +-2^1024. *)
Definition eR (x : f64) : R := match x with S754_infinity s => (if s then - bpow radix2 1024 else bpow radix2 1024)%R | _ => fR x end.
Lemma eR_fin x : fis_finite x = true -> eR x = fR x. Proof. now destruct x. Qed.
Lemma fltb_eR x y : fvalid x = true -> fvalid y = true -> fis_nan x = false -> fis_nan y = false -> fltb x y = true <-> (eR x < eR y)%R.
Proof.
  intros Vx Vy Nx Ny. pose proof (bpow_gt_0 radix2 1024) as B0. change 1024 with emax64 in B0.
  pose proof (fR_lt_emax x Vx) as Bx. pose proof (fR_lt_emax y Vy) as By. apply Rabs_lt_inv in Bx, By.
  destruct (fis_finite x) eqn:Fx; [destruct (fis_finite y) eqn:Fy|].
  - rewrite !eR_fin by assumption. now apply fltb_spec.
  - rewrite (eR_fin x) by assumption. destruct y as [|t| |]; try discriminate. unfold eR. change 1024 with emax64. destruct t.
    + split; [|lra]. destruct x as [| | |[] ? ?]; discriminate.
    + split; [lra|]. intros _. destruct x as [| | |[] ? ?]; try discriminate; reflexivity.
  - destruct x as [|s| |]; try discriminate. destruct (fis_finite y) eqn:Fy.
    + rewrite (eR_fin y) by assumption. unfold eR. change 1024 with emax64. destruct s.
      * split; [lra|]. intros _. destruct y as [| | |[] ? ?]; try discriminate; reflexivity.
      * split; [|lra]. destruct y as [| | |[] ? ?]; discriminate.
    + destruct y as [|t| |]; try discriminate. unfold eR. change 1024 with emax64. destruct s, t; (split; [first [discriminate|intros _; lra]|intros H; first [reflexivity|exfalso; lra]]).
Qed.
Lemma eR_bound x : fvalid x = true -> (- bpow radix2 emax64 <= eR x <= bpow radix2 emax64)%R.
Proof.
  intros V. pose proof (bpow_gt_0 radix2 emax64) as B0. pose proof (fR_lt_emax x V) as B. apply Rabs_lt_inv in B. unfold eR. change 1024 with emax64. destruct x as [|[]| |]; lra.
Qed.

(** Functions on doubles that keep infinities and the order of the reals. *)
Definition keeps_order (f : f64 -> f64) : Prop :=
  (forall x, fvalid x = true -> fis_nan x = false -> fvalid (f x) = true /\ fis_nan (f x) = false) /\
  (forall s, f (S754_infinity s) = S754_infinity s) /\
  (forall x y, finite x -> finite y -> (fR x <= fR y)%R -> (eR (f x) <= eR (f y))%R).
Lemma keeps_le f x y : keeps_order f -> fvalid x = true -> fvalid y = true -> fis_nan x = false -> fis_nan y = false -> (eR x <= eR y)%R -> (eR (f x) <= eR (f y))%R.
Proof.
  intros (K1 & K2 & K3) Vx Vy Nx Ny H. pose proof (eR_bound _ (proj1 (K1 x Vx Nx))) as Bx. pose proof (eR_bound _ (proj1 (K1 y Vy Ny))) as By.
  pose proof (bpow_gt_0 radix2 emax64) as B0.
  destruct (fis_finite x) eqn:Fx; [destruct (fis_finite y) eqn:Fy|].
  - rewrite !eR_fin in H by assumption. apply K3; auto.
  - destruct y as [|t| |]; try discriminate. rewrite K2 in *. destruct t; [|exact (proj2 Bx)]. exfalso.
    rewrite eR_fin in H by assumption. pose proof (fR_lt_emax x Vx) as B. apply Rabs_lt_inv in B. unfold eR in H. change 1024 with emax64 in H. lra.
  - destruct x as [|s| |]; try discriminate. rewrite K2 in *. destruct s; [exact (proj1 By)|].
    destruct (fis_finite y) eqn:Fy.
    + exfalso. rewrite (eR_fin y) in H by assumption. pose proof (fR_lt_emax y Vy) as B. apply Rabs_lt_inv in B. unfold eR in H. change 1024 with emax64 in H. lra.
    + destruct y as [|t| |]; try discriminate. rewrite K2 in *. exact H.
Qed.
Lemma keeps_comp f g : keeps_order f -> keeps_order g -> keeps_order (fun x => g (f x)).
Proof.
  intros Hf Hg. pose proof Hf as (F1 & F2 & F3). pose proof Hg as (G1 & G2 & G3). split; [|split].
  - intros x V N. destruct (F1 x V N). now apply G1.
  - intros s. now rewrite F2, G2.
  - intros x y [Vx Fx] [Vy Fy] H. destruct (F1 x Vx (finite_not_nan x Fx)), (F1 y Vy (finite_not_nan y Fy)).
    apply keeps_le; auto.
Qed.

Lemma keeps_fround : keeps_order fround.
Proof.
  split; [|split].
  - intros x V N. destruct (fis_finite x) eqn:F.
    + destruct (fround_spec x V F) as (V' & F' & _). auto using finite_not_nan.
    + destruct x; try discriminate; now split.
  - reflexivity.
  - intros x y [Vx Fx] [Vy Fy] H. destruct (fround_spec x Vx Fx) as (Vx' & Fx' & _ & z & Ez & Bz). destruct (fround_spec y Vy Fy) as (Vy' & Fy' & _ & w & Ew & Bw).
    rewrite !eR_fin by assumption. rewrite Ez, Ew. apply Rabs_le_inv in Bz, Bw. destruct (Req_dec (fR x) (fR y)) as [E|E].
    + (* equal numbers *)
      destruct x as [s|s| |s m e], y as [t|t| |t m' e']; try discriminate.
      * unfold fR in Ez, Ew. cbn in Ez, Ew. lra.
      * exfalso. unfold fR in E. cbn [SF2R] in E. symmetry in E. now apply eq_0_F2R in E; destruct t.
      * exfalso. unfold fR in E. cbn [SF2R] in E. now apply eq_0_F2R in E; destruct s.
      * assert (Q : feqb (S754_finite s m e) (S754_finite t m' e') = true) by (now apply feqb_spec).
        apply feqb_cases in Q as [Q|(a & b & Q & _)]; [|discriminate]. rewrite <- Q in Ew. rewrite <- Ez, <- Ew. lra.
    + apply IZR_le. destruct (Z.le_gt_cases z w) as [|G]; [assumption|]. assert (G' : (IZR w + 1 <= IZR z)%R) by (rewrite <- plus_IZR; apply IZR_le; lia). lra.
Qed.

Lemma RN_sign_over v : ~ (Rabs (RN v) < bpow radix2 emax64)%R -> (0 < v -> bpow radix2 emax64 <= RN v)%R /\ (v < 0 -> RN v <= - bpow radix2 emax64)%R /\ v <> 0%R.
Proof.
  intros H. apply Rnot_lt_le in H. pose proof (bpow_gt_0 radix2 emax64) as B0. split; [|split].
  - intros P. assert (0 <= RN v)%R by (rewrite <- RN_0; apply RN_le; lra). now rewrite Rabs_pos_eq in H.
  - intros P. assert (RN v <= 0)%R by (rewrite <- RN_0; apply RN_le; lra). rewrite Rabs_left1 in H by assumption. lra.
  - intros ->. rewrite RN_0, Rabs_R0 in H. lra.
Qed.
Lemma sign_of_neg x : (fR x < 0)%R -> fsign_neg x = true.
Proof. intros H. pose proof (fR_sign x) as [_ S]. destruct (fsign_neg x); [reflexivity|]. specialize (S eq_refl). lra. Qed.
Lemma sign_of_pos x : (0 < fR x)%R -> fsign_neg x = false.
Proof. intros H. pose proof (fR_sign x) as [S _]. destruct (fsign_neg x); [|reflexivity]. specialize (S eq_refl). lra. Qed.

(** The value of a product or quotient by a positive number. *)
Lemma clamp_le (h : R -> R) (g : f64 -> f64) : (forall u v, u <= v -> h u <= h v)%R -> (forall u, 0 < u -> 0 < h u)%R -> (forall u, u < 0 -> h u < 0)%R -> h 0%R = 0%R ->
  (forall x, finite x -> let r := RN (h (fR x)) in if Rlt_bool (Rabs r) (bpow radix2 emax64) then fis_finite (g x) = true /\ fR (g x) = r else g x = S754_infinity (fsign_neg x)) ->
  forall x y, finite x -> finite y -> (fR x <= fR y)%R -> (eR (g x) <= eR (g y))%R.
Proof.
  intros Mo Pos Neg Z0 Sp x y Hx Hy H. pose proof (RN_le _ _ (Mo _ _ H)) as HR.
  pose proof (Sp x Hx) as Sx. pose proof (Sp y Hy) as Sy. cbv zeta in Sx, Sy.
  pose proof (bpow_gt_0 radix2 emax64) as B0.
  assert (C : forall z, finite z -> ~ (Rabs (RN (h (fR z))) < bpow radix2 emax64)%R -> (0 < fR z /\ bpow radix2 emax64 <= RN (h (fR z)) \/ fR z < 0 /\ RN (h (fR z)) <= - bpow radix2 emax64)%R).
  { intros z Hz N. destruct (RN_sign_over _ N) as (C1 & C2 & C3). destruct (Rtotal_order (fR z) 0) as [L|[E|L]].
    - right. split; [exact L|]. apply C2. now apply Neg.
    - rewrite E, Z0 in C3. lra.
    - left. split; [exact L|]. apply C1. now apply Pos. }
  destruct (Rlt_bool_spec (Rabs (RN (h (fR x)))) (bpow radix2 emax64)) as [Lx|Lx]; destruct (Rlt_bool_spec (Rabs (RN (h (fR y)))) (bpow radix2 emax64)) as [Ly|Ly].
  - destruct Sx as [F1 E1], Sy as [F2 E2]. rewrite !eR_fin, E1, E2 by assumption. exact HR.
  - destruct Sx as [F1 E1]. rewrite (eR_fin (g x)), E1, Sy by assumption. apply Rabs_lt_inv in Lx. unfold eR. change 1024 with emax64.
    destruct (C y Hy) as [[P Q]|[P Q]]; [lra| |].
    + rewrite sign_of_pos by assumption. lra.
    + lra.
  - destruct Sy as [F2 E2]. rewrite (eR_fin (g y)), E2, Sx by assumption. apply Rabs_lt_inv in Ly. unfold eR. change 1024 with emax64.
    destruct (C x Hx) as [[P Q]|[P Q]]; [lra| |].
    + lra.
    + rewrite sign_of_neg by assumption. lra.
  - rewrite Sx, Sy. unfold eR. change 1024 with emax64.
    destruct (C x Hx) as [[P Q]|[P Q]]; [lra| |]; destruct (C y Hy) as [[P' Q']|[P' Q']]; try lra.
    + rewrite !sign_of_pos by lra. lra.
    + rewrite (sign_of_neg x), (sign_of_pos y) by lra. lra.
    + rewrite !sign_of_neg by lra. lra.
Qed.

Section Factor.
Variable P : f64.
Hypothesis (VP : fvalid P = true) (FP : fis_finite P = true) (SP : fsign_neg P = false) (P1 : (0 < fR P)%R).
Lemma P_pos : exists m e, P = S754_finite false m e.
Proof. destruct P as [s|s| |s m e]; try discriminate. - unfold fR in P1. cbn in P1. lra. - cbn in SP. subst s. now exists m, e. Qed.
Lemma keeps_mul : keeps_order (fun x => fmul x P).
Proof.
  destruct P_pos as (m & e & EP). split; [|split].
  - intros x V N. split; [now apply fmul_valid|]. destruct (fis_finite x) eqn:F.
    + pose proof (fmul_spec x P V VP F FP) as S. cbv zeta in S. destruct (Rlt_bool _ _); [apply finite_not_nan, S|now rewrite S].
    + rewrite EP. destruct x as [|s| |]; try discriminate. reflexivity.
  - intros s. rewrite EP. now destruct s.
  - apply (clamp_le (fun u => u * fR P)%R).
    + intros. apply Rmult_le_compat_r; lra.
    + intros. apply Rmult_lt_0_compat; lra.
    + intros. rewrite <- (Rmult_0_l (fR P)). apply Rmult_lt_compat_r; lra.
    + ring.
    + intros x [V F]. pose proof (fmul_spec x P V VP F FP) as S. cbv zeta in *. destruct (Rlt_bool _ _); [exact S|]. now rewrite SP, xorb_false_r in S.
Qed.
Lemma keeps_div : keeps_order (fun x => fdiv x P).
Proof.
  destruct P_pos as (m & e & EP). assert (IP : (0 < / fR P)%R) by (now apply Rinv_0_lt_compat). split; [|split].
  - intros x V N. split; [now apply fdiv_valid|]. destruct (fis_finite x) eqn:F.
    + pose proof (fdiv_spec x P V VP F ltac:(lra)) as S. cbv zeta in S. destruct (Rlt_bool _ _); [apply finite_not_nan, S|now rewrite S].
    + rewrite EP. destruct x as [|s| |]; try discriminate. reflexivity.
  - intros s. rewrite EP. now destruct s.
  - apply (clamp_le (fun u => u / fR P)%R); unfold Rdiv.
    + intros. apply Rmult_le_compat_r; lra.
    + intros. apply Rmult_lt_0_compat; lra.
    + intros. rewrite <- (Rmult_0_l (/ fR P)). apply Rmult_lt_compat_r; lra.
    + ring.
    + intros x [V F]. pose proof (fdiv_spec x P V VP F ltac:(lra)) as S. cbv zeta in *. destruct (Rlt_bool _ _); [exact S|]. now rewrite SP, xorb_false_r in S.
Qed.
End Factor.

Theorem c84_monotone p x y rx ry : 0 <= p <= 22 -> fvalid x = true -> fvalid y = true -> fltb x y = true -> rounds_to p x rx -> rounds_to p y ry -> fltb ry rx = false.
Proof.
  intros Hp Vx Vy L ->%rounds_inv ->%rounds_inv. destruct (pow10_spec p Hp) as (VP & FP & SP & EP). pose proof (pow10_pos p ltac:(lia)) as PT.
  set (P := @pow10 NF p) in *. assert (P1 : (0 < fR P)%R) by lra.
  assert (Nx : fis_nan x = false) by (destruct x; try reflexivity; destruct y as [|[]| |[] ? ?]; discriminate).
  assert (Ny : fis_nan y = false) by (destruct y; try reflexivity; destruct x as [|[]| |[] ? ?]; discriminate).
  apply fltb_eR in L; auto.
  assert (K : keeps_order (fun x => fdiv (fround (fmul x P)) P)).
  { apply (keeps_comp (fun x => fround (fmul x P)) (fun x => fdiv x P)); [|now apply keeps_div].
    apply (keeps_comp (fun x => fmul x P) fround); [now apply keeps_mul|exact keeps_fround]. }
  pose proof (keeps_le _ x y K Vx Vy Nx Ny ltac:(lra)) as H. destruct K as (K1 & _ & _).
  change (@round_num NF p x) with (fdiv (fround (fmul x P)) P). change (@round_num NF p y) with (fdiv (fround (fmul y P)) P).
  destruct (K1 x Vx Nx), (K1 y Vy Ny). apply not_true_iff_false. intros C. apply fltb_eR in C; auto. lra.
Qed.

(** Vectors and matrices, and lists of values, are rounded component by
    component. *)
Theorem c84_components p : 
  (forall l r, @value_round NF p (Vector l) = Vector r <-> Forall2 (rounds_to p) l r) /\
  (forall m r, @value_round NF p (Matrix m) = Matrix r <-> Forall2 (Forall2 (rounds_to p)) m r).
Proof.
  assert (V : forall l r, map (@round_num NF p) l = r <-> Forall2 (rounds_to p) l r).
  { intros l r. split.
    - intros <-. induction l; cbn; constructor; [reflexivity|assumption].
    - induction 1 as [|a b l r H _ IH]; cbn; [reflexivity|]. apply rounds_inv in H. now subst. }
  split.
  - intros l r. rewrite <- V. cbn [value_round]. split; [intros H; now injection H|now intros ->].
  - intros m r. assert (W : map (map (@round_num NF p)) m = r <-> Forall2 (Forall2 (rounds_to p)) m r).
    { split.
      - intros <-. induction m; cbn; constructor; [now apply V|assumption].
      - induction 1 as [|a b l t H _ IH]; cbn; [reflexivity|]. apply V in H. now subst. }
    rewrite <- W. cbn [value_round]. split; [intros H; now injection H|now intros ->].
Qed.

Lemma rounds_calc p x r : @round_num NF p x = r -> rounds_to p x r.
Proof. intros H. unfold rounds_to. cbn [value_round]. now f_equal. Qed.
(** For larger numbers rounding again can give another number: 35251562639720.836
    rounds to ....84, and this to ....85. *)
Theorem c84_not_idempotent : exists x r s, finite x /\ rounds_to 2 x r /\ rounds_to 2 r s /\ fltb r s = true /\
  (Rabs (fR x) * IZR (10 ^ 2) <= IZR (4 * 10 ^ 15))%R.
Proof.
  exists (S754_finite false 4512200017884267 (-7)), (S754_finite false 4512200017884268 (-7)), (S754_finite false 4512200017884269 (-7)).
  split; [now split|]. split; [apply rounds_calc; vm_compute; reflexivity|]. split; [apply rounds_calc; vm_compute; reflexivity|]. split; [reflexivity|].
  unfold fR, SF2R, F2R. cbn [Fnum Fexp cond_Zopp]. change (bpow radix2 (-7)) with (/ 128)%R. change (10 ^ 2) with 100. change (4 * 10 ^ 15) with 4000000000000000.
  rewrite Rabs_pos_eq; lra.
Qed.

(** Examples: 2.675 to two decimals is 2.68 (though the double is below 2.675). *)
Definition ex_x : f64 := S754_finite false 6023564501608038 (-51).
Definition ex_r : f64 := S754_finite false 6034823500676465 (-51).
Example ex_rounds : rounds_to 2 ex_x ex_r. Proof. apply rounds_calc. vm_compute. reflexivity. Qed.
Example ex_bound : finite ex_x /\ (Rabs (fR ex_x) * IZR (10 ^ 2) <= IZR (10 ^ 15 - 3))%R.
Proof.
  split; [now split|]. unfold ex_x, fR, SF2R, F2R. cbn [Fnum Fexp cond_Zopp]. change (bpow radix2 (-51)) with (/ 2251799813685248)%R. change (10 ^ 2) with 100. change (10 ^ 15 - 3) with 999999999999997.
  rewrite Rabs_pos_eq; lra.
Qed.
Example ex_again : rounds_to 2 ex_r ex_r.
Proof. eapply c84_idempotent; [apply ex_bound|lia|apply ex_bound|apply ex_rounds]. Qed.
Example ex_negative : rounds_to 2 (fopp ex_x) (fopp ex_r).
Proof. apply c84_odd, ex_rounds. Qed.
Example ex_order : fltb f1 ex_x = true /\ fvalid f1 = true /\ rounds_to 2 f1 f1. Proof. split; [reflexivity|]. split; [reflexivity|]. apply rounds_calc. vm_compute. reflexivity. Qed.
End Floats.
