(** * FloatSqrt: in binary64 the square root of a square is the absolute value. *)
From Coq Require Import ZArith Bool Lia SpecFloat Reals Lra Psatz.
From Flocq Require Import Core IEEE754.BinarySingleNaN Relative.
From Verif Require Import Base F64 Num FloatFacts FloatLaws SolveFloat.
Local Open Scope R_scope.

Notation F53 := (SpecFloat.fexp prec64 emax64).
Notation format := (generic_format radix2 F53).
#[local] Instance valid53 : Valid_exp F53 := fexp_correct prec64 emax64 _.
Definition tiny : R := / 9007199254740992. (* 2^-53 *)
Lemma format_fR x : fvalid x = true -> format (fR x).
Proof. intros H. apply to_bf in H as [b <-]. rewrite fR_bf. apply generic_format_B2R. Qed.
Lemma tiny_pos : 0 < tiny. Proof. unfold tiny. lra. Qed.
Lemma bpow_53 m : bpow radix2 (m - 53) = bpow radix2 m * tiny.
Proof. unfold Z.sub. rewrite bpow_plus. f_equal. Qed.
Lemma ulp_lower x : 0 < x -> bpow radix2 (mag radix2 x) * tiny <= ulp radix2 F53 x.
Proof.
  intros Hx. rewrite ulp_neq_0 by lra. rewrite <- bpow_53. apply bpow_le. unfold cexp, SpecFloat.fexp, SpecFloat.emin, prec64, emax64. lia.
Qed.
Lemma below_mag x : 0 < x -> x < bpow radix2 (mag radix2 x).
Proof. intros Hx. pose proof (bpow_mag_gt radix2 x). rewrite Rabs_pos_eq in H; lra. Qed.
(** Two doubles differ by at least 2^-53 of either. *)
Lemma gap f x : format f -> format x -> 0 < x -> f <> x -> tiny * x <= Rabs (f - x).
Proof.
  intros Ff Fx Hx Hn. pose proof tiny_pos as Tp. assert (T1 : tiny < 1) by (unfold tiny; lra).
  destruct (Rtotal_order f x) as [L|[E|L]]; [|contradiction|].
  - rewrite Rabs_left by lra. destruct (Rle_or_lt f 0) as [H0|H0]; [nra|].
    pose proof (succ_le_lt radix2 F53 f x Ff Fx L) as S. rewrite succ_eq_pos in S by lra.
    pose proof (id_p_ulp_le_bpow radix2 F53 f (mag radix2 f) H0 Ff (below_mag f H0)) as B.
    pose proof (ulp_lower f H0) as U. set (Bd := bpow radix2 (mag radix2 f)) in *.
    destruct (Rle_or_lt x Bd); nra.
  - rewrite Rabs_pos_eq by lra. pose proof (succ_le_lt radix2 F53 x f Fx Ff L) as S. rewrite succ_eq_pos in S by lra.
    pose proof (ulp_lower x Hx) as U. pose proof (below_mag x Hx). nra.
Qed.
Lemma RN_format v : format (RN v). Proof. apply generic_format_round; typeclasses eauto. Qed.
Lemma RN_nearest v g : format g -> Rabs (RN v - v) <= Rabs (g - v).
Proof. intros Hg. pose proof (round_N_pt radix2 F53 (fun x => negb (Z.even x)) v) as [_ H]. now apply H. Qed.
(** Close enough to a double: rounds to it. *)
Lemma RN_close q x : format x -> 0 < x -> 2 * Rabs (q - x) < tiny * x -> RN q = x.
Proof.
  intros Fx Hx H. destruct (Req_dec (RN q) x) as [E|E]; [exact E|]. exfalso.
  pose proof (gap _ _ (RN_format q) Fx Hx E) as G. pose proof (RN_nearest q x Fx) as N.
  pose proof (Rabs_triang (RN q - q) (q - x)) as T. replace (RN q - q + (q - x)) with (RN q - x) in T by ring.
  rewrite (Rabs_minus_sym x q) in N. lra.
Qed.
Lemma RN_relative v : bpow radix2 (-1000) <= v -> exists d, Rabs d <= tiny / (1 + tiny) /\ RN v = v * (1 + d).
Proof.
  intros Hv. pose proof (bpow_gt_0 radix2 (-1000)) as Hp. pose proof tiny_pos.
  destruct (relative_error_N_FLT'_ex radix2 (3 - emax64 - prec64) prec64 ltac:(reflexivity) (fun x => negb (Z.even x)) v) as (d & e & Hd & He & Hde & G).
  assert (Ut : u_ro radix2 prec64 = tiny) by (unfold u_ro, tiny; cbn; lra). rewrite Ut in Hd.
  apply Rmult_integral in Hde as [-> | ->].
  - exists (e / v). split.
    + unfold Rdiv. rewrite Rabs_mult, (Rabs_pos_eq (/ v)) by (left; apply Rinv_0_lt_compat; lra).
      apply Rle_trans with (/ 2 * bpow radix2 (3 - emax64 - prec64) * / bpow radix2 (-1000)).
      * apply Rmult_le_compat; auto using Rabs_pos; [left; apply Rinv_0_lt_compat; lra|]. apply Rinv_le_contravar; lra.
      * rewrite Rmult_assoc, <- bpow_opp, <- bpow_plus. change (3 - emax64 - prec64 + - -1000)%Z with (-74)%Z.
        assert (bpow radix2 (-74) <= tiny * / 4) by (change (bpow radix2 (-74)) with (/ 18889465931478580854784); unfold tiny; lra).
        assert (tiny * / 2 <= tiny * / (1 + tiny)) by (apply Rmult_le_compat_l; [lra|]; apply Rinv_le_contravar; unfold tiny; lra). lra.
    + change (RN v) with (round radix2 (FLT_exp (3 - emax64 - prec64) prec64) (Znearest (fun x => negb (Z.even x))) v). rewrite G. field. lra.
  - exists d. split; [exact Hd|]. change (RN v) with (round radix2 (FLT_exp (3 - emax64 - prec64) prec64) (Znearest (fun x => negb (Z.even x))) v). rewrite G. ring.
Qed.
(** [|sqrt(X^2(1+d)) - X|] is less than half of 2^-53 X. *)
Lemma root_close X q d : 0 < X -> 0 <= q -> q * q = X * X * (1 + d) -> Rabs d <= tiny / (1 + tiny) -> 2 * Rabs (q - X) < tiny * X.
Proof.
  intros HX Hq E Hd. assert (Ht : tiny / (1 + tiny) < tiny * (1 - tiny / 4)).
  { unfold tiny. lra. }
  assert (T0 := tiny_pos). assert (T1 : tiny < / 4) by (unfold tiny; lra).
  assert (D1 : d < tiny * (1 - tiny / 4)) by (apply Rle_lt_trans with (Rabs d); [apply Rle_abs|lra]).
  assert (D2 : - d < tiny * (1 - tiny / 4)) by (apply Rle_lt_trans with (Rabs d); [rewrite <- Rabs_Ropp; apply Rle_abs|lra]).
  assert (XX : 0 < X * X) by nra.
  destruct (Rle_or_lt X q) as [L|L].
  - rewrite Rabs_pos_eq by lra. apply Rnot_le_lt. intros C. assert (q - X >= tiny * X / 2) by lra.
    assert (q * q >= (X + tiny * X / 2) * (X + tiny * X / 2)) by nra. assert (X * X * (1 + tiny) <= X * X * (1 + d)) by nra. nra.
  - rewrite Rabs_left by lra. apply Rnot_le_lt. intros C. assert (q <= X - tiny * X / 2) by lra.
    assert (q * q <= (X - tiny * X / 2) * (X - tiny * X / 2)) by nra.
    assert (X * X * (1 + d) > X * X * (1 - tiny * (1 - tiny / 4))) by nra. nra.
Qed.
Theorem fsqrt_square x : fvalid x = true -> fis_finite x = true -> bpow radix2 (-500) <= Rabs (fR x) <= bpow radix2 500 -> fsqrt (fmul x x) = fabs x.
Proof.
  intros Hv Hf [H1 H2]. pose proof (fmul_spec x x Hv Hv Hf Hf) as H. cbv zeta in H. pose proof (bpow_gt_0 radix2 (-500)) as P.
  assert (E : fR x * fR x = Rabs (fR x) * Rabs (fR x)) by (rewrite <- Rabs_mult, Rabs_pos_eq; [reflexivity|nra]).
  set (X := Rabs (fR x)) in *. rewrite E in H.
  assert (B : bpow radix2 (-1000) <= X * X) by (change (-1000)%Z with (-500 + -500)%Z; rewrite bpow_plus; apply Rmult_le_compat; lra).
  assert (B' : X * X <= bpow radix2 1000) by (change 1000%Z with (500 + 500)%Z; rewrite bpow_plus; apply Rmult_le_compat; lra).
  destruct (RN_relative _ B) as (d & Hd & R). pose proof tiny_pos as T0.
  assert (D : Rabs d <= / 2). { eapply Rle_trans; [exact Hd|]. unfold tiny; lra. }
  apply Rabs_le_inv in D as [D1 D2]. assert (0 < X * X) by (pose proof (bpow_gt_0 radix2 (-1000)); lra).
  rewrite Rlt_bool_true in H.
  2: { rewrite R, Rabs_pos_eq by nra. apply Rle_lt_trans with (bpow radix2 1000 * bpow radix2 1); [change (bpow radix2 1) with 2; nra|]. rewrite <- bpow_plus. now apply bpow_lt. }
  destruct H as [F1 F2]. rewrite R in F2. assert (Vp := fmul_valid x x Hv Hv).
  assert (P0 : 0 <= fR (fmul x x)) by (rewrite F2; nra).
  destruct (fsqrt_spec (fmul x x) Vp F1 P0) as [G1 G2].
  assert (Va := fabs_valid x Hv). assert (Ra : fR (fabs x) = X).
  { unfold X. apply to_bf in Hv as [b <-]. rewrite fabs_bf, !fR_bf. apply B2R_Babs. }
  assert (HX : 0 < X) by lra.
  assert (S : RN (R_sqrt.sqrt (fR (fmul x x))) = X).
  { apply RN_close; [rewrite <- Ra; now apply format_fR|exact HX|]. apply (root_close X _ d HX); [apply sqrt_pos| |exact Hd]. rewrite sqrt_def by exact P0. exact F2. }
  rewrite S in G2. apply f_ext; auto using fsqrt_valid; [now destruct x|congruence|].
  assert (Sa : fsign_neg (fabs x) = false) by now destruct x. rewrite Sa.
  destruct (fsign_neg (fsqrt (fmul x x))) eqn:Es; [|reflexivity]. destruct (fR_sign (fsqrt (fmul x x))) as [N _]. specialize (N Es). lra.
Qed.
