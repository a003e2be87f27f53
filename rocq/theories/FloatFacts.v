(** * FloatFacts: binary64 arithmetic of the model against Flocq.

    The model computes with the standard library's [SpecFloat]; Flocq proves
    what those operations do to real numbers.  Nothing here refers to Coq's
    primitive floats. *)
From Coq Require Import List NArith ZArith Bool Lia Arith SpecFloat Reals Lra.
From Flocq Require Import Core IEEE754.BinarySingleNaN.
From Verif Require Import Base F64.
Import ListNotations.
Local Open Scope Z_scope.

Notation bf := (binary_float prec64 emax64).
#[export] Instance Hprec64 : FLX.Prec_gt_0 prec64 := eq_refl.
#[export] Instance Hemax64 : Prec_lt_emax prec64 emax64 := eq_refl.

(** ** Comparison (for every [spec_float], valid or not) *)
Lemma fcompare_swap x y : SFcompare y x = option_map CompOpp (SFcompare x y).
Proof.
  destruct x as [[]|[]| |[] m e], y as [[]|[]| |[] m' e']; cbn; try reflexivity; f_equal;
    rewrite (Z.compare_antisym e e'); destruct (e ?= e'); cbn; try reflexivity;
    try (rewrite (Pos.compare_cont_antisym m m' Eq); now rewrite ?CompOpp_involutive).
  all: rewrite (Pos.compare_cont_antisym m' m Eq); cbn; now rewrite ?CompOpp_involutive.
Qed.
Lemma feqb_sym x y : feqb x y = feqb y x.
Proof. unfold feqb, SFeqb. rewrite (fcompare_swap x y). destruct (SFcompare x y) as [[]|]; reflexivity. Qed.
Lemma fltb_asym x y : fltb x y = true -> fltb y x = false.
Proof. unfold fltb, SFltb. rewrite (fcompare_swap x y). destruct (SFcompare x y) as [[]|]; cbn; congruence. Qed.
Lemma fcompare_none x y : SFcompare x y = None <-> x = S754_nan \/ y = S754_nan.
Proof.
  destruct x as [[]|[]| |[] m e], y as [[]|[]| |[] m' e']; cbn; split; intros H; try discriminate; auto;
    destruct H as [H|H]; discriminate.
Qed.
Lemma fcompare_eq x y : SFcompare x y = Some Eq <-> feqb x y = true.
Proof. unfold feqb, SFeqb. destruct (SFcompare x y) as [[]|]; split; congruence. Qed.
(** Two numbers are equal, ordered, or one of them is NaN. *)
Lemma ftrichotomy x y : feqb x y = true \/ fltb x y = true \/ fltb y x = true \/ fis_nan x = true \/ fis_nan y = true.
Proof.
  unfold feqb, fltb, SFeqb, SFltb. rewrite (fcompare_swap x y).
  destruct (SFcompare x y) as [[]|] eqn:E; cbn; auto.
  apply fcompare_none in E as [-> | ->]; cbn; auto.
Qed.

(** ** An integer that orders the valid floats *)
Definition fkey (x : f64) : Z :=
  match x with
  | S754_nan => 0
  | S754_zero _ => 0
  | S754_infinity s => if s then - 2 ^ 70 else 2 ^ 70
  | S754_finite s m e => let k := (e + 1075) * 2 ^ 53 + Z.pos m in if s then - k else k
  end.

Lemma digits_bounds m : 2 ^ (Z.pos (digits2_pos m) - 1) <= Z.pos m < 2 ^ Z.pos (digits2_pos m).
Proof.
  induction m as [m IH|m IH|]; cbn [digits2_pos]; [| |cbn; lia];
    rewrite Pos2Z.inj_succ; replace (Z.succ (Z.pos (digits2_pos m)) - 1) with (Z.succ (Z.pos (digits2_pos m) - 1)) by lia;
    rewrite !Z.pow_succ_r by lia; lia.
Qed.
Lemma valid_bounds s m e : fvalid (S754_finite s m e) = true ->
  0 < Z.pos m < 2 ^ 53 /\ -1074 <= e <= 971.
Proof.
  intros H. unfold fvalid, valid_binary, bounded in H. apply andb_true_iff in H as [H1 H2].
  apply Zle_bool_imp_le in H2. unfold canonical_mantissa in H1. apply Zeq_bool_eq in H1.
  unfold fexp, emin, prec64, emax64 in *.
  pose proof (digits_bounds m) as [_ Hd].
  assert (Z.pos (digits2_pos m) <= 53) by lia.
  assert (2 ^ Z.pos (digits2_pos m) <= 2 ^ 53) by (apply Z.pow_le_mono_r; lia). lia.
Qed.
(** Of two mantissas of 53 bits the one with more bits or larger exponent ... *)
Lemma fkey_lt x y : fvalid x = true -> fvalid y = true -> fltb x y = true -> fkey x < fkey y.
Proof.
  unfold fltb, SFltb.
  destruct x as [s|s| |s m e], y as [s'|s'| |s' m' e']; intros Hx Hy;
    try apply valid_bounds in Hx; try apply valid_bounds in Hy; try destruct s; try destruct s'; cbn -[Z.pow Z.mul]; try discriminate; intros H;
    change (2 ^ 70) with (131072 * 2 ^ 53) in *; try nia.
  - destruct (Z.compare_spec e e') as [<-|E|E]; cbn in H; try discriminate; [|nia].
    change (Pos.compare_cont Eq m m') with (m ?= m')%positive in H.
    destruct (Pos.compare_spec m m') as [<-|E|E]; cbn in H; try discriminate; nia.
  - destruct (Z.compare_spec e e') as [<-|E|E]; cbn in H; try discriminate; [|nia].
    change (Pos.compare_cont Eq m m') with (m ?= m')%positive in H.
    destruct (Pos.compare_spec m m') as [<-|E|E]; cbn in H; try discriminate; nia.
Qed.

(** ** The arithmetic operations are those of Flocq *)
Definition of_bf (x : bf) : f64 := B2SF x.
Lemma of_bf_valid x : fvalid (of_bf x) = true.
Proof. apply valid_binary_B2SF. Qed.
Lemma to_bf x : fvalid x = true -> exists b : bf, of_bf b = x.
Proof. intros H. exists (SF2B x H). apply B2SF_SF2B. Qed.

Lemma round_nearest_even_equiv s m l : round_nearest_even m l = choice_mode mode_NE s m l.
Proof. case l; [reflexivity|intro c]. case c; [|reflexivity..]. cbn. unfold Round.cond_incr. now case Z.even. Qed.
Lemma round_aux_equiv sx mx ex lx :
  SpecFloat.binary_round_aux prec64 emax64 sx mx ex lx = BinarySingleNaN.binary_round_aux prec64 emax64 mode_NE sx mx ex lx.
Proof.
  unfold SpecFloat.binary_round_aux, BinarySingleNaN.binary_round_aux.
  set (mrse' := shr_fexp _ _ _). case mrse'; intros mrs' e'; cbn -[prec64 emax64 shr_fexp]. now rewrite (round_nearest_even_equiv sx).
Qed.
Lemma round_equiv s m e : SpecFloat.binary_round prec64 emax64 s m e = BinarySingleNaN.binary_round prec64 emax64 mode_NE s m e.
Proof.
  unfold SpecFloat.binary_round, BinarySingleNaN.binary_round, shl_align_fexp.
  set (mez := shl_align _ _ _); case mez as [mz ez]. apply round_aux_equiv.
Qed.
Lemma normalize_equiv m e sz : SpecFloat.binary_normalize prec64 emax64 m e sz =
  of_bf (BinarySingleNaN.binary_normalize prec64 emax64 Hprec64 Hemax64 mode_NE m e sz).
Proof. unfold of_bf. case m as [|p|p]; [reflexivity|..]; cbn -[prec64 emax64]; rewrite B2SF_SF2B; apply round_equiv. Qed.

Lemma fadd_bf (x y : bf) : fadd (of_bf x) (of_bf y) = of_bf (Bplus mode_NE x y).
Proof.
  case x as [sx|sx| |sx mx ex Bx]; case y as [sy|sy| |sy my ey By]; try reflexivity; try (cbn; now case Bool.eqb).
  apply normalize_equiv.
Qed.
Lemma fsub_bf (x y : bf) : fsub (of_bf x) (of_bf y) = of_bf (Bminus mode_NE x y).
Proof.
  case x as [sx|sx| |sx mx ex Bx]; case y as [sy|sy| |sy my ey By]; try reflexivity; try (cbn; now case Bool.eqb).
  cbn -[prec64 emax64]. unfold fsub, SFsub, Bminus, of_bf. cbn -[prec64 emax64]. unfold Zminus. rewrite <- cond_Zopp_negb. apply normalize_equiv.
Qed.
Lemma fmul_bf (x y : bf) : fmul (of_bf x) (of_bf y) = of_bf (Bmult mode_NE x y).
Proof.
  case x as [sx|sx| |sx mx ex Bx]; case y as [sy|sy| |sy my ey By]; try reflexivity; try (cbn; now case Bool.eqb).
  unfold fmul, of_bf, Bmult. cbn -[prec64 emax64]. rewrite B2SF_SF2B. apply round_aux_equiv.
Qed.
Lemma fdiv_bf (x y : bf) : fdiv (of_bf x) (of_bf y) = of_bf (Bdiv mode_NE x y).
Proof.
  case x as [sx|sx| |sx mx ex Bx]; case y as [sy|sy| |sy my ey By]; try reflexivity; try (cbn; now case Bool.eqb).
  unfold fdiv, of_bf, Bdiv. cbn -[prec64 emax64]. rewrite B2SF_SF2B.
  set (melz := SFdiv_core_binary _ _ _ _ _ _). case melz as [[mz ez] lz]. apply round_aux_equiv.
Qed.
Lemma fsqrt_bf (x : bf) : fsqrt (of_bf x) = of_bf (Bsqrt mode_NE x).
Proof.
  case x as [sx|sx| |sx mx ex Bx]; try reflexivity; try (now case sx). case sx; [reflexivity|].
  unfold fsqrt, of_bf, Bsqrt. cbn -[prec64 emax64]. rewrite B2SF_SF2B.
  set (melz := SFsqrt_core_binary _ _ _ _). case melz as [[mz ez] lz]. apply round_aux_equiv.
Qed.
Lemma fopp_bf (x : bf) : fopp (of_bf x) = of_bf (Bopp x).
Proof. now destruct x. Qed.
Lemma fabs_bf (x : bf) : fabs (of_bf x) = of_bf (Babs x).
Proof. now destruct x. Qed.

Ltac to_bfs := repeat match goal with H : fvalid ?x = true |- _ => is_var x; let b := fresh "v" x in apply to_bf in H as [b <-] end.
Lemma fadd_valid x y : fvalid x = true -> fvalid y = true -> fvalid (fadd x y) = true.
Proof. intros; to_bfs. rewrite fadd_bf. apply of_bf_valid. Qed.
Lemma fsub_valid x y : fvalid x = true -> fvalid y = true -> fvalid (fsub x y) = true.
Proof. intros; to_bfs. rewrite fsub_bf. apply of_bf_valid. Qed.
Lemma fmul_valid x y : fvalid x = true -> fvalid y = true -> fvalid (fmul x y) = true.
Proof. intros; to_bfs. rewrite fmul_bf. apply of_bf_valid. Qed.
Lemma fdiv_valid x y : fvalid x = true -> fvalid y = true -> fvalid (fdiv x y) = true.
Proof. intros; to_bfs. rewrite fdiv_bf. apply of_bf_valid. Qed.
Lemma fsqrt_valid x : fvalid x = true -> fvalid (fsqrt x) = true.
Proof. intros; to_bfs. rewrite fsqrt_bf. apply of_bf_valid. Qed.
Lemma fopp_valid x : fvalid x = true -> fvalid (fopp x) = true.
Proof. intros; to_bfs. rewrite fopp_bf. apply of_bf_valid. Qed.
Lemma fabs_valid x : fvalid x = true -> fvalid (fabs x) = true.
Proof. intros; to_bfs. rewrite fabs_bf. apply of_bf_valid. Qed.
Lemma f_of_Z_valid z : fvalid (f_of_Z z) = true.
Proof. unfold f_of_Z. rewrite normalize_equiv. apply of_bf_valid. Qed.

(** ** Real values *)
Definition fR (x : f64) : R := SF2R radix2 x.
(** Rounding to nearest even in the format of binary64. *)
Definition RN (r : R) : R := Generic_fmt.round radix2 (SpecFloat.fexp prec64 emax64) (round_mode mode_NE) r.
Lemma fR_bf b : fR (of_bf b) = B2R b.
Proof. apply SF2R_B2SF. Qed.
Lemma finite_bf b : fis_finite (of_bf b) = is_finite b.
Proof. now destruct b. Qed.
Lemma RN_le x y : (x <= y)%R -> (RN x <= RN y)%R.
Proof. apply round_le; try typeclasses eauto. Qed.
Lemma RN_id x : fvalid x = true -> RN (fR x) = fR x.
Proof.
  intros; to_bfs. rewrite fR_bf. apply round_generic; [typeclasses eauto|]. apply generic_format_B2R.
Qed.
Lemma RN_0 : RN 0 = 0%R.
Proof. apply round_0; typeclasses eauto. Qed.
Lemma fR_lt_emax x : fvalid x = true -> (Rabs (fR x) < bpow radix2 emax64)%R.
Proof. intros; to_bfs. rewrite fR_bf. apply abs_B2R_lt_emax. Qed.
Lemma fltb_spec x y : fvalid x = true -> fvalid y = true -> fis_finite x = true -> fis_finite y = true ->
  fltb x y = true <-> (fR x < fR y)%R.
Proof.
  intros Hx Hy. to_bfs. rewrite !finite_bf, !fR_bf. intros Fx Fy. unfold fltb, of_bf. fold (Bltb vx vy).
  rewrite Bltb_correct by assumption. case Rlt_bool_spec; intros H; split; intros; try discriminate; auto. lra.
Qed.
Lemma feqb_spec x y : fvalid x = true -> fvalid y = true -> fis_finite x = true -> fis_finite y = true ->
  feqb x y = true <-> (fR x = fR y)%R.
Proof.
  intros Hx Hy. to_bfs. rewrite !finite_bf, !fR_bf. intros Fx Fy. unfold feqb, of_bf. fold (Beqb vx vy).
  rewrite Beqb_correct by assumption. case Req_bool_spec; intros H; split; intros; try discriminate; auto; contradiction.
Qed.

Lemma fadd_spec x y : fvalid x = true -> fvalid y = true -> fis_finite x = true -> fis_finite y = true ->
  let r := RN (fR x + fR y) in
  if Rlt_bool (Rabs r) (bpow radix2 emax64) then fis_finite (fadd x y) = true /\ fR (fadd x y) = r
  else fadd x y = S754_infinity (fsign_neg x) /\ fsign_neg x = fsign_neg y.
Proof.
  intros Hx Hy. to_bfs. rewrite fadd_bf, !finite_bf, !fR_bf. intros Fx Fy.
  pose proof (Bplus_correct prec64 emax64 _ _ mode_NE vx vy Fx Fy) as H. cbv zeta. unfold RN.
  destruct (Rlt_bool _ _); [now destruct H as (H1 & H2 & _)|]. destruct H as [H1 H2].
  replace (fsign_neg (of_bf vx)) with (Bsign vx) by (now destruct vx).
  replace (fsign_neg (of_bf vy)) with (Bsign vy) by (now destruct vy). split; [exact H1|exact H2].
Qed.
Lemma fsub_spec x y : fvalid x = true -> fvalid y = true -> fis_finite x = true -> fis_finite y = true ->
  let r := RN (fR x - fR y) in
  if Rlt_bool (Rabs r) (bpow radix2 emax64) then fis_finite (fsub x y) = true /\ fR (fsub x y) = r
  else fsub x y = S754_infinity (fsign_neg x) /\ fsign_neg x = negb (fsign_neg y).
Proof.
  intros Hx Hy. to_bfs. rewrite fsub_bf, !finite_bf, !fR_bf. intros Fx Fy.
  pose proof (Bminus_correct prec64 emax64 _ _ mode_NE vx vy Fx Fy) as H. cbv zeta. unfold RN.
  destruct (Rlt_bool _ _); [now destruct H as (H1 & H2 & _)|]. destruct H as [H1 H2].
  replace (fsign_neg (of_bf vx)) with (Bsign vx) by (now destruct vx).
  replace (fsign_neg (of_bf vy)) with (Bsign vy) by (now destruct vy). split; [exact H1|exact H2].
Qed.
Lemma fmul_spec x y : fvalid x = true -> fvalid y = true -> fis_finite x = true -> fis_finite y = true ->
  let r := RN (fR x * fR y) in
  if Rlt_bool (Rabs r) (bpow radix2 emax64) then fis_finite (fmul x y) = true /\ fR (fmul x y) = r
  else fmul x y = S754_infinity (xorb (fsign_neg x) (fsign_neg y)).
Proof.
  intros Hx Hy. to_bfs. rewrite fmul_bf, !finite_bf, !fR_bf. intros Fx Fy.
  pose proof (Bmult_correct prec64 emax64 _ _ mode_NE vx vy) as H. cbv zeta. unfold RN.
  destruct (Rlt_bool _ _); [destruct H as (H1 & H2 & _); now rewrite H2, Fx, Fy|].
  replace (fsign_neg (of_bf vx)) with (Bsign vx) by (now destruct vx).
  replace (fsign_neg (of_bf vy)) with (Bsign vy) by (now destruct vy). exact H.
Qed.
Lemma fdiv_spec x y : fvalid x = true -> fvalid y = true -> fis_finite x = true -> fR y <> 0%R ->
  let r := RN (fR x / fR y) in
  if Rlt_bool (Rabs r) (bpow radix2 emax64) then fis_finite (fdiv x y) = true /\ fR (fdiv x y) = r
  else fdiv x y = S754_infinity (xorb (fsign_neg x) (fsign_neg y)).
Proof.
  intros Hx Hy. to_bfs. rewrite fdiv_bf, !finite_bf, !fR_bf. intros Fx Fy.
  pose proof (Bdiv_correct prec64 emax64 _ _ mode_NE vx vy Fy) as H. cbv zeta. unfold RN.
  destruct (Rlt_bool _ _); [destruct H as (H1 & H2 & _); now rewrite H2, Fx|].
  replace (fsign_neg (of_bf vx)) with (Bsign vx) by (now destruct vx).
  replace (fsign_neg (of_bf vy)) with (Bsign vy) by (now destruct vy). exact H.
Qed.

(** ** Signs *)
Definition not_negative (x : f64) : Prop := fltb x f0 = false.
Lemma fR_sign x : (fsign_neg x = true -> fR x <= 0)%R /\ (fsign_neg x = false -> 0 <= fR x)%R.
Proof.
  destruct x as [s|s| |s m e]; cbn; try (split; intros; lra).
  split; intros ->; [apply F2R_le_0|apply F2R_ge_0]; cbn; lia.
Qed.
Lemma fR_sign_strict x : fltb x f0 = false -> fsign_neg x = true -> x = S754_zero true.
Proof. destruct x as [[]|[]| |[] m e]; cbn; congruence. Qed.
Lemma f0_valid : fvalid f0 = true. Proof. reflexivity. Qed.
Lemma fR_f0 : fR f0 = 0%R. Proof. reflexivity. Qed.
Lemma not_negative_R x : fvalid x = true -> fis_finite x = true -> not_negative x <-> (0 <= fR x)%R.
Proof.
  intros Hv Hf. unfold not_negative. pose proof (fltb_spec x f0 Hv f0_valid Hf eq_refl) as H. rewrite fR_f0 in H.
  destruct (fltb x f0); split; intros; try discriminate; auto.
  - destruct H as [H _]. specialize (H eq_refl). lra.
  - apply Rnot_lt_le. intros G. apply H in G. discriminate.
Qed.

(** Subtracting the smaller from the larger number never gives a negative
    result. *)
Lemma fsub_not_negative a b : fvalid a = true -> fvalid b = true -> fltb a b = true -> not_negative (fsub b a).
Proof.
  intros Ha Hb Hlt.
  destruct (fis_finite a) eqn:Fa, (fis_finite b) eqn:Fb.
  2-4: (destruct a as [[]|[]| |[] m e], b as [[]|[]| |[] m' e']; cbn in Fa, Fb, Hlt; try discriminate; reflexivity).
  pose proof (fsub_spec b a Hb Ha Fb Fa) as H. cbv zeta in H.
  apply fltb_spec in Hlt; try assumption.
  destruct (Rlt_bool _ _).
  - destruct H as [Hf Hr]. apply not_negative_R; [now apply fsub_valid|assumption|]. rewrite Hr. rewrite <- RN_0. apply RN_le. lra.
  - destruct H as [Hr Hs]. rewrite Hr. destruct (fsign_neg b) eqn:Eb; [|reflexivity].
    destruct (fsign_neg a) eqn:Ea; [discriminate|]. pose proof (proj1 (fR_sign b) Eb). pose proof (proj2 (fR_sign a) Ea). lra.
Qed.
Lemma fdiv_not_negative x y : fvalid x = true -> fvalid y = true -> fis_finite y = true -> (0 < fR y)%R ->
  not_negative x -> not_negative (fdiv x y).
Proof.
  intros Hx Hy Fy Hpos Hn. destruct (fis_finite x) eqn:Fx.
  - pose proof (fdiv_spec x y Hx Hy Fx ltac:(lra)) as H. cbv zeta in H. apply not_negative_R in Hn as Hn'; try assumption.
    assert (Hr : (0 <= RN (fR x / fR y))%R).
    { rewrite <- RN_0. apply RN_le. apply Rmult_le_pos; [assumption|]. left. now apply Rinv_0_lt_compat. }
    destruct (Rlt_bool _ _) eqn:E.
    + destruct H as [Hf H]. apply not_negative_R; [now apply fdiv_valid|assumption|lra].
    + rewrite H. assert (fsign_neg y = false).
      { destruct (fsign_neg y) eqn:Ey; auto. apply fR_sign in Ey. lra. }
      destruct (fsign_neg x) eqn:Ex.
      * apply fR_sign_strict in Ex; [|exact Hn]. exfalso. subst x. revert E. cbn [fR SF2R].
        unfold Rdiv. rewrite Rmult_0_l, RN_0, Rabs_R0. case Rlt_bool_spec; [discriminate|]. intros G. pose proof (bpow_gt_0 radix2 emax64). lra.
      * rewrite H0. reflexivity.
  - destruct x as [[]|[]| |[] m e], y as [[]|[]| |[] m' e']; cbn in Fx, Fy, Hn; try discriminate; try reflexivity.
    all: exfalso; revert Hpos; cbn [fR SF2R]; intros Hpos; first [lra|apply Rlt_not_le in Hpos; apply Hpos; apply F2R_le_0; cbn; lia].
Qed.

(** Adding a number that is not negative: the sum is larger, equal or NaN. *)
Lemma fadd_progress p d : fvalid p = true -> fvalid d = true -> not_negative d ->
  fltb p (fadd p d) = true \/ feqb (fadd p d) p = true \/ fadd p d = S754_nan.
Proof.
  intros Hp Hd Hn. destruct (fis_finite p) eqn:Fp, (fis_finite d) eqn:Fd.
  - pose proof (fadd_spec p d Hp Hd Fp Fd) as H. cbv zeta in H. apply not_negative_R in Hn as Hn'; try assumption.
    pose proof (RN_le (fR p) (fR p + fR d) ltac:(lra)) as G. rewrite RN_id in G by assumption.
    destruct (Rlt_bool _ _) eqn:E.
    + destruct H as [Hf H]. rewrite fltb_spec, feqb_spec by (assumption || now apply fadd_valid). rewrite H. lra.
    + destruct H as [H Hs]. rewrite H. destruct (fsign_neg d) eqn:Ed.
      * apply fR_sign_strict in Ed; [|exact Hn]. exfalso. subst d. revert E. cbn [fR SF2R]. rewrite Rplus_0_r. rewrite RN_id by assumption.
        case Rlt_bool_spec; [discriminate|]. pose proof (fR_lt_emax p Hp). lra.
      * rewrite Hs. left. destruct p as [[]|[]| |[] m e]; cbn in Fp |- *; congruence.
  - destruct p as [[]|[]| |[] m e], d as [[]|[]| |[] m' e']; cbn in Fp, Fd, Hn; try discriminate; cbn; auto.
  - destruct p as [[]|[]| |[] m e], d as [[]|[]| |[] m' e']; cbn in Fp, Fd, Hn; try discriminate; cbn; auto.
  - destruct p as [[]|[]| |[] m e], d as [[]|[]| |[] m' e']; cbn in Fp, Fd, Hn; try discriminate; cbn; auto.
Qed.

(** Once a step adds nothing, no later step does. *)
Lemma feqb_cases x y : feqb x y = true -> x = y \/ exists s s', x = S754_zero s /\ y = S754_zero s'.
Proof.
  unfold feqb, SFeqb. destruct x as [s|s| |s m e], y as [s'|s'| |s' m' e']; cbn; try discriminate; eauto;
    try (destruct s; discriminate); try (destruct s'; discriminate); try (destruct s, s'; cbn; try discriminate; auto; fail).
  destruct s, s'; try discriminate; destruct (Z.compare_spec e e') as [<-|E|E]; cbn; try discriminate;
    change (Pos.compare_cont Eq m m') with (m ?= m')%positive;
    destruct (Pos.compare_spec m m') as [<-|E|E]; cbn; try discriminate; auto.
Qed.
Lemma fadd_stuck p d : feqb (fadd p d) p = true -> fadd (fadd p d) d = fadd p d.
Proof.
  intros H. apply feqb_cases in H as [E | (s & s' & H1 & ->)]; [now rewrite E|].
  destruct d as [[]|[]| |[] m' e'], s'; cbn in H1; try discriminate; reflexivity.
Qed.

(** ** Addition, subtraction, multiplication by -1 *)
Lemma fadd_comm x y : fadd x y = fadd y x.
Proof.
  unfold fadd. destruct x as [[]|[]| |[] m e], y as [[]|[]| |[] m' e']; try reflexivity;
    unfold SFadd; rewrite (Z.min_comm e e'); f_equal; apply Z.add_comm.
Qed.
Lemma fsub_fadd_opp x y : fsub x y = fadd x (fopp y).
Proof.
  unfold fsub, fadd, fopp. destruct x as [[]|[]| |[] m e], y as [[]|[]| |[] m' e']; try reflexivity;
    cbn -[Z.min Z.sub Z.add fst shl_align binary_normalize]; f_equal; lia.
Qed.
Lemma fopp_involutive x : fopp (fopp x) = x.
Proof. now destruct x as [[]|[]| |[] m e]. Qed.
Definition fm1 : f64 := fopp (f_of_Z 1).
Lemma fm1_eq : fm1 = S754_finite true 4503599627370496 (-52).
Proof. vm_compute. reflexivity. Qed.
Lemma fm1_valid : fvalid fm1 = true. Proof. vm_compute. reflexivity. Qed.
Lemma fm1_R : fR fm1 = (-1)%R.
Proof.
  rewrite fm1_eq. cbn [fR SF2R cond_Zopp]. unfold F2R. cbn -[IZR bpow].
  change (-52)%Z with (- (52))%Z. rewrite bpow_opp. cbn. field.
Qed.
Lemma fmul_m1 x : fvalid x = true -> fmul x fm1 = fopp x.
Proof.
  intros Hx. destruct (fis_finite x) eqn:Fx.
  2: { rewrite fm1_eq. now destruct x as [[]|[]| |[] m e]. }
  apply to_bf in Hx as [b <-]. rewrite finite_bf in Fx. pose proof fm1_valid as Hm. destruct (to_bf _ Hm) as [c Hc].
  rewrite <- Hc, fmul_bf, fopp_bf. f_equal.
  assert (Rc : B2R c = (-1)%R) by (rewrite <- fR_bf, Hc; apply fm1_R).
  assert (Sc : Bsign c = true) by (replace (Bsign c) with (fsign_neg (of_bf c)) by (now destruct c); rewrite Hc, fm1_eq; reflexivity).
  assert (Fc : is_finite c = true) by (rewrite <- finite_bf, Hc, fm1_eq; reflexivity).
  pose proof (Bmult_correct prec64 emax64 _ _ mode_NE b c) as H.
  assert (Hr : Generic_fmt.round radix2 (SpecFloat.fexp prec64 emax64) (round_mode mode_NE) (B2R b * B2R c) = (- B2R b)%R).
  { rewrite Rc. replace (B2R b * -1)%R with (B2R (Bopp b)) by (rewrite B2R_Bopp; ring).
    rewrite round_generic; [now rewrite B2R_Bopp|typeclasses eauto|apply generic_format_B2R]. }
  rewrite Hr in H. rewrite Rlt_bool_true in H by (rewrite Rabs_Ropp; apply abs_B2R_lt_emax).
  destruct H as (H1 & H2 & H3). rewrite Fx, Fc in H2. cbn in H2.
  apply B2R_Bsign_inj; [exact H2|now rewrite is_finite_Bopp|now rewrite B2R_Bopp|].
  rewrite H3; [|destruct (Bmult mode_NE b c); cbn in *; congruence].
  rewrite Sc, Bsign_Bopp; [now destruct (Bsign b)|now destruct b].
Qed.
Lemma fmul_comm x y : fmul x y = fmul y x.
Proof.
  unfold fmul. destruct x as [[]|[]| |[] m e], y as [[]|[]| |[] m' e']; try reflexivity;
    unfold SFmul; rewrite (Pos.mul_comm m m'), (Z.add_comm e e'); reflexivity.
Qed.
Lemma fm1_mul x : fvalid x = true -> fmul fm1 x = fopp x.
Proof. intros. rewrite fmul_comm. now apply fmul_m1. Qed.

(** ** Integers *)
Lemma mag_trunc_R m e : f_rem1_zero (S754_finite false m e) = true ->
  fR (S754_finite false m e) = IZR (mag_trunc m e).
Proof.
  cbn [f_rem1_zero fR SF2R cond_Zopp]. unfold mag_trunc, F2R. cbn [Fnum Fexp]. destruct (e <? 0) eqn:E.
  - intros H. apply Z.eqb_eq in H. apply Z.ltb_lt in E.
    rewrite (Z.div_mod (Z.pos m) (2 ^ (- e))) at 1 by (apply Z.pow_nonzero; lia). rewrite H, Z.add_0_r, mult_IZR.
    rewrite (IZR_Zpower radix2) by lia. rewrite bpow_opp. field. apply Rgt_not_eq, bpow_gt_0.
  - intros _. apply Z.ltb_ge in E. rewrite mult_IZR, (IZR_Zpower radix2) by lia. reflexivity.
Qed.
Lemma mag_trunc_int m e i : fR (S754_finite false m e) = IZR i ->
  f_rem1_zero (S754_finite false m e) = true /\ mag_trunc m e = i.
Proof.
  intros H. assert (G : f_rem1_zero (S754_finite false m e) = true).
  { cbn [f_rem1_zero]. destruct (e <? 0) eqn:E; [|reflexivity]. apply Z.ltb_lt in E.
    cbn [fR SF2R cond_Zopp] in H. unfold F2R in H. cbn [Fnum Fexp] in H.
    assert (Z.pos m = i * 2 ^ (- e))%Z.
    { apply eq_IZR. rewrite mult_IZR, (IZR_Zpower radix2) by lia. rewrite <- H, bpow_opp. field. apply Rgt_not_eq, bpow_gt_0. }
    rewrite H0. rewrite Z.mod_mul by (apply Z.pow_nonzero; lia). reflexivity. }
  split; [assumption|]. apply eq_IZR. rewrite <- H. symmetry. now apply mag_trunc_R.
Qed.
