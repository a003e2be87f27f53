(** * FloatLaws: identities that hold bit for bit in binary64. *)
From Coq Require Import List NArith ZArith Bool Arith Lia String SpecFloat Reals Lra.
From Flocq Require Import Core.Core IEEE754.BinarySingleNaN.
From Verif Require Import Base F64 Num FloatFacts.
Local Open Scope Z_scope.

Lemma round_aux_opp s m e l : SFopp (SpecFloat.binary_round_aux prec64 emax64 s m e l) = SpecFloat.binary_round_aux prec64 emax64 (negb s) m e l.
Proof.
  unfold SpecFloat.binary_round_aux. destruct (shr_fexp prec64 emax64 m e l) as [mrs e'].
  destruct (shr_fexp prec64 emax64 (round_nearest_even (shr_m mrs) (loc_of_shr_record mrs)) e' loc_Exact) as [mrs' e''].
  destruct (shr_m mrs') as [|p|p]; [reflexivity| |reflexivity]. now destruct (_ <=? _).
Qed.
Lemma fmul_opp_l x y : fmul (fopp x) y = fopp (fmul x y).
Proof.
  unfold fmul, fopp. destruct x as [s|s| |s m e], y as [t|t| |t m' e']; cbn [SFopp SFmul]; try reflexivity;
    try (now destruct s, t). rewrite round_aux_opp. now destruct s, t.
Qed.
Lemma fmul_opp_r x y : fmul x (fopp y) = fopp (fmul x y).
Proof. now rewrite (fmul_comm x), fmul_opp_l, fmul_comm. Qed.
Lemma fdiv_opp_l x y : fdiv (fopp x) y = fopp (fdiv x y).
Proof.
  unfold fdiv, fopp. destruct x as [s|s| |s m e], y as [t|t| |t m' e']; cbn [SFopp SFdiv]; try reflexivity;
    try (now destruct s, t).
  destruct (SFdiv_core_binary prec64 emax64 (Z.pos m) e (Z.pos m') e') as [[mz ez] lz]. rewrite round_aux_opp. now destruct s, t.
Qed.
Lemma fdiv_opp_r x y : fdiv x (fopp y) = fopp (fdiv x y).
Proof.
  unfold fdiv, fopp. destruct x as [s|s| |s m e], y as [t|t| |t m' e']; cbn [SFopp SFdiv]; try reflexivity;
    try (now destruct s, t).
  destruct (SFdiv_core_binary prec64 emax64 (Z.pos m) e (Z.pos m') e') as [[mz ez] lz]. rewrite round_aux_opp. now destruct s, t.
Qed.
Lemma fm1_opp : fm1 = fopp f1. Proof. reflexivity. Qed.
Lemma fmul_1_r x : fvalid x = true -> fmul x f1 = x.
Proof. intros H. rewrite <- (fopp_involutive f1), <- fm1_opp, fmul_opp_r, fmul_m1 by assumption. apply fopp_involutive. Qed.
Lemma fmul_1_l x : fvalid x = true -> fmul f1 x = x.
Proof. intros. rewrite fmul_comm. now apply fmul_1_r. Qed.
(** Equal as reals and of the same sign: equal. *)
Lemma f_ext x y : fvalid x = true -> fvalid y = true -> fis_finite x = true -> fis_finite y = true -> fR x = fR y -> fsign_neg x = fsign_neg y -> x = y.
Proof.
  intros Hx Hy. apply to_bf in Hx as [a <-]. apply to_bf in Hy as [b <-]. rewrite !finite_bf, !fR_bf. intros Fx Fy R S. f_equal.
  apply B2R_Bsign_inj; auto. now destruct a, b.
Qed.
Lemma finite_not_nan x : fis_finite x = true -> fis_nan x = false. Proof. now destruct x. Qed.
Lemma fmul_sign x y : fvalid x = true -> fvalid y = true -> fis_nan (fmul x y) = false -> fsign_neg (fmul x y) = xorb (fsign_neg x) (fsign_neg y).
Proof.
  intros Hx Hy. apply to_bf in Hx as [a <-]. apply to_bf in Hy as [b <-]. rewrite fmul_bf. intros Hn.
  pose proof (Bmult_correct prec64 emax64 _ _ mode_NE a b) as H.
  destruct (Rlt_bool _ _).
  - destruct H as (_ & _ & H). replace (fsign_neg (of_bf (Bmult mode_NE a b))) with (Bsign (Bmult mode_NE a b)) by (now destruct (Bmult mode_NE a b)).
    rewrite H by (now destruct (Bmult mode_NE a b)). now destruct a, b.
  - unfold of_bf. rewrite H. cbn. now destruct a, b.
Qed.
Lemma fdiv_sign x y : fvalid x = true -> fvalid y = true -> fR y <> 0%R -> fis_nan (fdiv x y) = false -> fsign_neg (fdiv x y) = xorb (fsign_neg x) (fsign_neg y).
Proof.
  intros Hx Hy. apply to_bf in Hx as [a <-]. apply to_bf in Hy as [b <-]. rewrite fdiv_bf, fR_bf. intros Hz Hn.
  pose proof (Bdiv_correct prec64 emax64 _ _ mode_NE a b Hz) as H.
  destruct (Rlt_bool _ _).
  - destruct H as (_ & _ & H). replace (fsign_neg (of_bf (Bdiv mode_NE a b))) with (Bsign (Bdiv mode_NE a b)) by (now destruct (Bdiv mode_NE a b)).
    rewrite H by (now destruct (Bdiv mode_NE a b)). now destruct a, b.
  - unfold of_bf. rewrite H. cbn. now destruct a, b.
Qed.
Lemma f1_R : fR f1 = 1%R.
Proof. unfold f1, fR. cbn. unfold F2R; cbn. lra. Qed.
Lemma f1_eq : f1 = S754_finite false 4503599627370496 (-52). Proof. reflexivity. Qed.
Lemma fdiv_1_r x : fvalid x = true -> fdiv x f1 = x.
Proof.
  intros Hx. destruct (fis_finite x) eqn:Fx.
  2: { rewrite f1_eq. now destruct x as [[]|[]| |[] m e]. }
  assert (H1 : fR f1 <> 0%R) by (rewrite f1_R; lra).
  pose proof (fdiv_spec x f1 Hx eq_refl Fx H1) as H. cbv zeta in H. rewrite f1_R in H.
  replace (fR x / 1)%R with (fR x) in H by field. rewrite RN_id in H by assumption.
  rewrite Rlt_bool_true in H by now apply fR_lt_emax. destruct H as [H2 H3].
  apply f_ext; auto using fdiv_valid. rewrite fdiv_sign; auto using finite_not_nan. now rewrite xorb_false_r.
Qed.
Lemma fdiv_self x : fvalid x = true -> fis_finite x = true -> feqb x f0 = false -> fdiv x x = f1.
Proof.
  intros Hx Fx H0. assert (Hz : fR x <> 0%R).
  { intros E. assert (feqb x f0 = true) by (apply feqb_spec; auto). congruence. }
  pose proof (fdiv_spec x x Hx Hx Fx Hz) as H. cbv zeta in H. replace (fR x / fR x)%R with (fR f1) in H by (rewrite f1_R; field; exact Hz).
  rewrite RN_id in H by reflexivity. rewrite Rlt_bool_true in H by now apply fR_lt_emax. destruct H as [H2 H3].
  apply f_ext; auto using fdiv_valid. rewrite fdiv_sign; auto using finite_not_nan. now rewrite xorb_nilpotent.
Qed.
Lemma fsub_self x : fis_finite x = true -> fsub x x = f0.
Proof.
  unfold fsub. destruct x as [[]|[]| |s m e]; cbn [SFsub]; try discriminate; try reflexivity. intros _.
  destruct s; cbn [cond_Zopp]; rewrite ?Z.min_id; rewrite Z.sub_diag; reflexivity.
Qed.
Definition f2 : f64 := f_of_Z 2.
Lemma f2_R : fR f2 = 2%R.
Proof. unfold f2, fR. cbn. unfold F2R; cbn. lra. Qed.
Lemma f2_eq : f2 = S754_finite false 4503599627370496 (-51). Proof. reflexivity. Qed.
Lemma fadd_self x : fvalid x = true -> fadd x x = fmul f2 x.
Proof.
  intros Hx. destruct (fis_finite x) eqn:Fx.
  2: { rewrite f2_eq. now destruct x as [[]|[]| |[] m e]. }
  pose proof (fadd_spec x x Hx Hx Fx Fx) as H. pose proof (fmul_spec f2 x eq_refl Hx eq_refl Fx) as H'. cbv zeta in H, H'.
  rewrite f2_R in H'. replace (fR x + fR x)%R with (2 * fR x)%R in H by ring. destruct (Rlt_bool (Rabs (RN (2 * fR x))) _) eqn:B.
  - destruct H as [H1 H2], H' as [H3 H4]. apply f_ext; auto using fadd_valid, fmul_valid; [congruence|].
    rewrite fmul_sign by (auto using finite_not_nan). change (fsign_neg f2) with false. cbn [xorb].
    apply to_bf in Hx as [b <-]. rewrite finite_bf in Fx. rewrite fadd_bf.
    pose proof (Bplus_correct prec64 emax64 _ _ mode_NE b b Fx Fx) as G. rewrite fR_bf in B. unfold RN in B.
    replace (B2R b + B2R b)%R with (2 * B2R b)%R in G by ring. rewrite B in G. destruct G as (_ & _ & G).
    replace (fsign_neg (of_bf (Bplus mode_NE b b))) with (Bsign (Bplus mode_NE b b)) by (now destruct (Bplus mode_NE b b)).
    replace (fsign_neg (of_bf b)) with (Bsign b) by (now destruct b). rewrite G.
    pose proof (fR_sign (of_bf b)) as [S1 S2]. rewrite fR_bf in S1, S2. replace (fsign_neg (of_bf b)) with (Bsign b) in S1, S2 by (now destruct b).
    destruct (Rcompare_spec (2 * B2R b) 0); destruct (Bsign b); auto; cbn.
    + specialize (S2 eq_refl). lra.
    + specialize (S1 eq_refl). lra.
  - destruct H as [-> _]. rewrite H'. change (fsign_neg f2) with false. now destruct (fsign_neg x).
Qed.
(** Equal as numbers: [==], or both NaN. *)
Definition same_number (x y : f64) : Prop := feqb x y = true \/ (fis_nan x = true /\ fis_nan y = true).
Lemma same_refl x : same_number x x.
Proof.
  destruct x as [[]|[]| |[] m e]; try (left; reflexivity); [right; now split| |];
    left; unfold feqb, SFeqb, SFcompare; rewrite Z.compare_refl, Pos.compare_cont_refl; reflexivity.
Qed.
Lemma same_zeros s t : same_number (S754_zero s) (S754_zero t).
Proof. left. now destruct s, t. Qed.
Lemma round_opp s m e : fopp (SpecFloat.binary_round prec64 emax64 s m e) = SpecFloat.binary_round prec64 emax64 (negb s) m e.
Proof. unfold SpecFloat.binary_round. destruct (shl_align m e _) as [mz ez]. apply round_aux_opp. Qed.
Lemma normalize_opp z e s t : z <> 0 -> fopp (SpecFloat.binary_normalize prec64 emax64 z e s) = SpecFloat.binary_normalize prec64 emax64 (- z) e t.
Proof. destruct z; intros H; [easy| |]; cbn [SpecFloat.binary_normalize Z.opp]; apply round_opp. Qed.
(** A difference and the difference the other way round are opposite. *)
Lemma fsub_swap x y : same_number (fsub x y) (fopp (fsub y x)).
Proof.
  unfold fsub. destruct x as [s|s| |s m e], y as [t|t| |t m' e']; cbn [SFsub];
    try (destruct s, t; (apply same_refl || apply same_zeros)); try (destruct s; (apply same_refl || apply same_zeros));
    try (destruct t; (apply same_refl || apply same_zeros)); try apply same_refl.
  - rewrite (Z.min_comm e' e).
    generalize (cond_Zopp s (Z.pos (fst (shl_align m e (Z.min e e'))))), (cond_Zopp t (Z.pos (fst (shl_align m' e' (Z.min e e'))))). intros a b.
    destruct (Z.eq_dec (a - b) 0) as [E|E].
    + replace (b - a) with 0 by lia. rewrite E. apply same_zeros.
    + rewrite (normalize_opp (b - a) (Z.min e e') false false) by lia. replace (- (b - a)) with (a - b) by lia. apply same_refl.
Qed.
