(** * PrintFloat: rounding to decimals in binary64, and the text of the result. *)
From Coq Require Import List NArith ZArith Bool Lia Arith SpecFloat Reals Lra.
From Flocq Require Import Core Relative IEEE754.BinarySingleNaN.
From Verif Require Import Base F64 FloatFacts DecimalText DecimalFloat DecimalShort.
Import ListNotations.
Local Open Scope Z_scope.

Lemma normalize_exact z s : Z.abs z < 2 ^ 53 -> z <> 0 ->
  let y := SpecFloat.binary_normalize prec64 emax64 z 0 s in
  fvalid y = true /\ fis_finite y = true /\ fR y = IZR z /\ fsign_neg y = (z <? 0).
Proof.
  intros Hz H0. cbv zeta. rewrite normalize_equiv. split; [apply of_bf_valid|].
  pose proof (binary_normalize_correct prec64 emax64 Hprec64 Hemax64 mode_NE z 0 s) as H. cbv zeta in H.
  assert (E : F2R (Float radix2 z 0) = IZR z) by (unfold F2R; cbn; apply Rmult_1_r).
  rewrite E in H.
  assert (G : generic_format radix2 (SpecFloat.fexp prec64 emax64) (IZR z)).
  { rewrite <- E. apply (generic_format_FLT radix2 (-1074) 53). exists (Float radix2 z 0); [reflexivity|exact Hz|cbn; lia]. }
  rewrite round_generic in H; [|typeclasses eauto|exact G].
  rewrite Rlt_bool_true in H.
  - destruct H as (H1 & H2 & H3). rewrite finite_bf, fR_bf. split; [exact H2|]. split; [exact H1|].
    replace (fsign_neg (of_bf _)) with (Bsign (binary_normalize prec64 emax64 Hprec64 Hemax64 mode_NE z 0 s)) by (now destruct (binary_normalize _ _ _ _ _ _ _ _)).
    rewrite H3. rewrite Rcompare_IZR. destruct (Z.compare_spec z 0); symmetry; [lia|apply Z.ltb_lt; lia|apply Z.ltb_ge; lia].
  - apply Rlt_trans with (bpow radix2 53); [|apply bpow_lt; reflexivity]. rewrite <- abs_IZR. apply (IZR_lt _ (2 ^ 53)). exact Hz.
Qed.

(** [f64::round]: the nearest integer. *)
Lemma fround_spec y : fvalid y = true -> fis_finite y = true ->
  fvalid (fround y) = true /\ fis_finite (fround y) = true /\ fsign_neg (fround y) = fsign_neg y /\
  exists z : Z, fR (fround y) = IZR z /\ (Rabs (IZR z - fR y) <= / 2)%R.
Proof.
  intros Hv Hf. destruct y as [s|s| |s m e]; try discriminate.
  - split; [reflexivity|]. split; [reflexivity|]. split; [reflexivity|]. exists 0. cbn. split; [reflexivity|]. unfold fR. cbn. rewrite Rminus_0_r, Rabs_R0. lra.
  - cbn [fround]. destruct (Z.ltb_spec e 0) as [He|He].
    2:{ split; [exact Hv|]. split; [reflexivity|]. split; [reflexivity|]. exists (cond_Zopp s (Z.pos m) * 2 ^ e). unfold fR, SF2R, F2R. cbn [Fnum Fexp].
        rewrite mult_IZR, (IZR_Zpower radix2) by assumption. split; [reflexivity|]. rewrite Rminus_diag_eq by reflexivity. rewrite Rabs_R0. lra. }
    set (d := 2 ^ (- e)). assert (Hd : 2 <= d).
    { unfold d. replace (- e) with (Z.succ (- e - 1)) by lia. rewrite Z.pow_succ_r by lia. assert (0 < 2 ^ (- e - 1)) by (apply Z.pow_pos_nonneg; lia). lia. }
    set (q := (2 * Z.pos m + d) / (2 * d)).
    pose proof (Z.div_mod (2 * Z.pos m + d) (2 * d) ltac:(lia)) as DM. pose proof (Z.mod_pos_bound (2 * Z.pos m + d) (2 * d) ltac:(lia)) as MB. fold q in DM.
    assert (Q0 : 0 <= q) by (apply Z.div_pos; lia). assert (Qm : q <= Z.pos m) by nia.
    assert (Hm : Z.pos m < 2 ^ 53) by (apply (valid_bounds s m e) in Hv; tauto).
    assert (V : forall s', fR (S754_finite s' m e) = (IZR (cond_Zopp s' (Z.pos m)) / IZR d)%R).
    { intros s'. unfold fR, SF2R, F2R. cbn [Fnum Fexp]. unfold Rdiv, d. f_equal. replace e with (- (- e)) at 1 by lia. rewrite bpow_opp. f_equal. symmetry. apply (IZR_Zpower radix2). lia. }
    assert (Pd : (0 < IZR d)%R) by (apply IZR_lt; lia).
    assert (Er : forall s', (Rabs (IZR (cond_Zopp s' q) - fR (S754_finite s' m e)) <= / 2)%R).
    { intros s'. rewrite V. assert (B : (Rabs (IZR q - IZR (Z.pos m) / IZR d) <= / 2)%R).
      { replace (IZR q - IZR (Z.pos m) / IZR d)%R with (IZR (2 * q * d - 2 * Z.pos m) / (2 * IZR d))%R by (rewrite minus_IZR, !mult_IZR; field; lra).
        unfold Rdiv. rewrite Rabs_mult, (Rabs_pos_eq (/ _)) by (apply Rlt_le, Rinv_0_lt_compat; lra). rewrite <- abs_IZR.
        apply Rmult_le_reg_r with (2 * IZR d)%R; [lra|]. rewrite Rmult_assoc, Rinv_l, Rmult_1_r by lra. replace (/ 2 * (2 * IZR d))%R with (IZR d) by field. apply IZR_le. lia. }
      destruct s'; cbn [cond_Zopp]; [|exact B]. rewrite !opp_IZR. unfold Rdiv in *. rewrite Ropp_mult_distr_l_reverse. rewrite <- Rabs_Ropp. now replace (- (- IZR q - - (IZR (Z.pos m) * / IZR d)))%R with (IZR q - IZR (Z.pos m) * / IZR d)%R by ring. }
    clearbody q. destruct q as [|q|q]; [| |lia].
    + split; [reflexivity|]. split; [reflexivity|]. split; [reflexivity|]. exists 0. split; [reflexivity|]. specialize (Er s). destruct s; exact Er.
    + assert (B1 : Z.abs (if s then Z.neg q else Z.pos q) < 2 ^ 53) by (destruct s; cbn [Z.abs]; lia).
      assert (B2 : (if s then Z.neg q else Z.pos q) <> 0) by (destruct s; discriminate).
      pose proof (normalize_exact _ s B1 B2) as N. cbv zeta in N. destruct N as (N1 & N2 & N3 & N4).
      split; [exact N1|]. split; [exact N2|]. split; [rewrite N4; now destruct s|].
      exists (if s then Z.neg q else Z.pos q). split; [exact N3|]. specialize (Er s). destruct s; exact Er.
Qed.

Lemma RN_IZR z : Z.abs z < 2 ^ 53 -> RN (IZR z) = IZR z.
Proof.
  intros Hz. apply round_generic; [typeclasses eauto|].
  assert (E : F2R (Float radix2 z 0) = IZR z) by (unfold F2R; cbn; apply Rmult_1_r). rewrite <- E.
  apply (generic_format_FLT radix2 (-1074) 53). exists (Float radix2 z 0); [reflexivity|exact Hz|cbn; lia].
Qed.
Lemma RN_abs_le x z : 0 <= z < 2 ^ 53 -> (Rabs x <= IZR z)%R -> (Rabs (RN x) <= IZR z)%R.
Proof.
  intros Hz H. apply Rabs_le_inv in H as [H1 H2]. apply RN_le in H1, H2. rewrite <- opp_IZR in H1. rewrite !RN_IZR in * by lia. rewrite opp_IZR in H1. now apply Rabs_le.
Qed.
Lemma RN_error x : (bpow radix2 (-1022) <= Rabs x)%R -> (Rabs (RN x - x) <= / 9007199254740992 * Rabs x)%R.
Proof.
  intros Hx. pose proof (relative_error_N_FLT radix2 (-1074) 53 eq_refl (fun n => negb (Z.even n)) x Hx) as E.
  change (/ 2 * bpow radix2 (- 53 + 1))%R with (/ 2 * / 4503599627370496)%R in E.
  replace (/ 9007199254740992)%R with (/ 2 * / 4503599627370496)%R by lra. exact E.
Qed.
Lemma emax_big : (IZR (10 ^ 15) < bpow radix2 emax64)%R.
Proof. apply Rlt_trans with (bpow radix2 53); [|apply bpow_lt; reflexivity]. apply (IZR_lt (10 ^ 15) (2 ^ 53)). reflexivity. Qed.

(** Rounding to [k] decimals ([P] is 10^k). *)
Lemma round_dec_spec x P k : fvalid x = true -> fis_finite x = true -> fvalid P = true -> fis_finite P = true -> 0 <= k -> fR P = IZR (10 ^ k) ->
  (Rabs (fR x) * IZR (10 ^ k) <= IZR (10 ^ 15 - 1))%R ->
  let r := fdiv (fround (fmul x P)) P in
  fvalid r = true /\ fis_finite r = true /\
  exists M : Z, Z.abs M < 10 ^ 15 /\ fR r = RN (IZR M / IZR (10 ^ k)) /\
    (Rabs (IZR M - fR x * IZR (10 ^ k)) <= / 2 + / 9007199254740992 * Rabs (fR x * IZR (10 ^ k)))%R.
Proof.
  intros Hx Fx HP FP Hk EP Hb. cbv zeta. set (T := IZR (10 ^ k)) in *.
  assert (PT : (1 <= T)%R) by (apply (IZR_le 1); assert (0 < 10 ^ k) by (apply Z.pow_pos_nonneg; lia); lia).
  pose proof (fmul_valid x P Hx HP) as Hy. pose proof (fmul_spec x P Hx HP Fx FP) as Sy. cbv zeta in Sy. rewrite EP in Sy.
  assert (A : Rabs (fR x * T) = (Rabs (fR x) * T)%R) by (rewrite Rabs_mult, (Rabs_pos_eq T) by lra; reflexivity).
  assert (By : (Rabs (RN (fR x * T)) <= IZR (10 ^ 15 - 1))%R) by (apply RN_abs_le; [split; [discriminate|reflexivity]|now rewrite A]).
  pose proof emax_big as EB. assert (L15 : (IZR (10 ^ 15 - 1) < IZR (10 ^ 15))%R) by (apply IZR_lt; lia).
  rewrite Rlt_bool_true in Sy by lra. destruct Sy as [Fy Ey].
  destruct (fround_spec (fmul x P) Hy Fy) as (Vr & Fr & _ & M & EM & BM). rewrite Ey in BM.
  assert (HM : Z.abs M < 10 ^ 15).
  { apply lt_IZR. rewrite abs_IZR. apply Rle_lt_trans with (Rabs (IZR M - RN (fR x * T)) + Rabs (RN (fR x * T)))%R.
    - replace (IZR M) with (IZR M - RN (fR x * T) + RN (fR x * T))%R at 1 by ring. apply Rabs_triang.
    - rewrite minus_IZR in *. lra. }
  pose proof (fdiv_valid _ P Vr HP) as Vd. pose proof (fdiv_spec _ P Vr HP Fr) as Sd. cbv zeta in Sd. rewrite EP, EM in Sd.
  specialize (Sd ltac:(lra)).
  assert (Bd : (Rabs (RN (IZR M / T)) <= IZR (10 ^ 15))%R).
  { apply RN_abs_le; [split; [discriminate|reflexivity]|]. unfold Rdiv. rewrite Rabs_mult, (Rabs_pos_eq (/ T)) by (apply Rlt_le, Rinv_0_lt_compat; lra).
    rewrite <- (Rmult_1_r (IZR (10 ^ 15))). apply Rmult_le_compat; [apply Rabs_pos|apply Rlt_le, Rinv_0_lt_compat; lra| |].
    - rewrite <- abs_IZR. apply IZR_le. lia.
    - rewrite <- Rinv_1. apply Rinv_le; lra. }
  rewrite Rlt_bool_true in Sd by lra. destruct Sd as [Fd Ed].
  split; [exact Vd|]. split; [exact Fd|]. exists M. split; [exact HM|]. split; [exact Ed|].
  set (y := (fR x * T)%R) in *. pose proof (Rabs_pos y) as P0. destruct (Rle_or_lt (bpow radix2 (-1022)) (Rabs y)) as [Hn|Hn].
  - apply RN_error in Hn. replace (IZR M - y)%R with ((IZR M - RN y) + (RN y - y))%R by ring. eapply Rle_trans; [apply Rabs_triang|]. lra.
  - assert (Hs : (bpow radix2 (-1022) <= / 4)%R) by (change (/ 4)%R with (bpow radix2 (-2)); apply bpow_le; lia).
    assert (Hy1 : (Rabs (RN y) <= / 4)%R).
    { assert (G : generic_format radix2 (SpecFloat.fexp prec64 emax64) (/ 4)) by (change (/ 4)%R with (bpow radix2 (-2)); apply generic_format_bpow; cbn; lia).
      assert (R4 : RN (/ 4) = (/ 4)%R) by (apply round_generic; [typeclasses eauto|exact G]).
      assert (R4' : RN (- / 4) = (- / 4)%R) by (apply round_generic; [typeclasses eauto|now apply generic_format_opp]).
      assert (H4 : (- / 4 <= y <= / 4)%R) by (apply Rabs_le_inv; lra). destruct H4 as [H4 H4']. apply RN_le in H4, H4'. apply Rabs_le. lra. }
    assert (M0 : M = 0).
    { assert (Z.abs M < 1); [|lia]. apply lt_IZR. rewrite abs_IZR. replace (IZR M) with (IZR M - RN y + RN y)%R by ring.
      eapply Rle_lt_trans; [apply Rabs_triang|]. lra. }
    subst M. replace (0 - y)%R with (- y)%R by ring. rewrite Rabs_Ropp. lra.
Qed.

(** ** The text of a decimal number *)
(** [s] is the number [C / 10^k] (with a minus sign if [neg]) written with the
    digits of its integer part and at most [k] decimals, the last not 0. *)
Definition plain_decimal (s : str) (neg : bool) (C k : Z) : Prop :=
  exists ip fp : str, s = (if neg then [45%N] else []) ++ ip ++ match fp with [] => [] | _ => 46%N :: fp end /\
    digits_of ip (C / 10 ^ k) /\ all_digits fp /\ Z.of_nat (List.length fp) <= k /\
    digits_val fp * 10 ^ (k - Z.of_nat (List.length fp)) = C mod 10 ^ k /\ last fp 49%N <> 48%N.

Lemma digits_val_bound ds : all_digits ds -> 0 <= digits_val ds < 10 ^ Z.of_nat (List.length ds).
Proof.
  intros H. induction H as [|c ds Hc H IH]; [cbn; lia|]. rewrite digits_val_cons. apply digit_bounds in Hc.
  cbn [List.length]. rewrite Nat2Z.inj_succ, Z.pow_succ_r by lia. unfold digit_val. assert (0 < 10 ^ Z.of_nat (List.length ds)) by (apply Z.pow_pos_nonneg; lia). nia.
Qed.
Lemma digits_of_val ds z : digits_of ds z -> all_digits ds /\ ds <> [] /\ digits_val ds = z.
Proof. intros (H1 & H2 & H3 & _). auto. Qed.
(** The last digit. *)
Lemma last_digit ds : all_digits ds -> ds <> [] -> digits_val ds mod 10 = digit_val (last ds 49%N).
Proof.
  intros H Hne. destruct (exists_last Hne) as (l & d & ->). rewrite last_last, digits_val_app. cbn [List.length]. change (10 ^ Z.of_nat 1) with 10.
  change (digits_val [d]) with (10 * 0 + digit_val d). apply Forall_app in H as [_ H]. assert (Hd : is_digit d = true) by now inversion H. apply digit_bounds in Hd.
  rewrite Z.add_comm, Z.mod_add by lia. apply Z.mod_small. unfold digit_val. lia.
Qed.
Lemma last_app_ne {A} (a b : list A) d : b <> [] -> last (a ++ b) d = last b d.
Proof. intros H. destruct (exists_last H) as (l & x & ->). now rewrite app_assoc, !last_last. Qed.
Lemma render_plain c p C k (neg : bool) : 0 < c -> (10 <= c -> c mod 10 <> 0) -> 0 <= k -> decR c p = (IZR C / IZR (10 ^ k))%R ->
  plain_decimal ((if neg then [45%N] else []) ++ render_dec c p) neg C k.
Proof.
  intros Hc Hcan Hk HR.
  assert (HC : C = c * 10 ^ (p + k) /\ 0 <= p + k).
  { assert (PT : (0 < b10 k)%R) by apply b10_gt0. rewrite <- b10_IZR in HR by assumption.
    assert (E : (IZR c * b10 (p + k) = IZR C)%R) by (rewrite b10_plus, <- Rmult_assoc; fold (decR c p); rewrite HR; field; lra).
    destruct (Z.le_gt_cases 0 (p + k)) as [H|H].
    - split; [|assumption]. rewrite b10_IZR, <- mult_IZR in E by assumption. symmetry. now apply eq_IZR.
    - exfalso. assert (E2 : c = C * 10 ^ (- (p + k))).
      { apply eq_IZR. rewrite mult_IZR, <- E, <- b10_IZR by lia. rewrite Rmult_assoc, <- b10_plus. replace (p + k + - (p + k)) with 0 by lia. cbn. ring. }
      replace (- (p + k)) with (Z.succ (- (p + k) - 1)) in E2 by lia. rewrite Z.pow_succ_r in E2 by lia.
      assert (0 < 10 ^ (- (p + k) - 1)) by (apply Z.pow_pos_nonneg; lia). set (t := 10 ^ (- (p + k) - 1)) in *.
      assert (D : c = (C * t) * 10) by lia. assert (10 <= c) by nia. apply Hcan; [assumption|]. rewrite D. now rewrite Z.mod_mul. }
  destruct HC as [HC Hpk]. assert (PT : 0 < 10 ^ k) by (apply Z.pow_pos_nonneg; lia).
  assert (Hc10 : c mod 10 <> 0) by (destruct (Z.le_gt_cases 10 c); [auto|rewrite Z.mod_small; lia]).
  destruct (show_digits c ltac:(lia)) as (D & Hne & V & U & Lo). pose proof (num_digits c Hc) as ND. cbv zeta in ND.
  unfold render_dec. set (ds := show_nonneg c) in *. set (len := Z.of_nat (List.length ds)) in *.
  destruct (Z.leb_spec 0 p) as [Hp|Hp].
  - (* an integer *)
    exists (ds ++ zeros p), []. rewrite app_nil_r. split; [reflexivity|].
    assert (Ei : C = (c * 10 ^ p) * 10 ^ k) by (rewrite HC, Z.pow_add_r by lia; ring).
    assert (Pp : 0 < 10 ^ p) by (apply Z.pow_pos_nonneg; lia).
    split; [|split; [constructor|split; [cbn; lia|split; [|discriminate]]]].
    + rewrite Ei, Z.div_mul by lia. unfold digits_of. rewrite app_length, Nat2Z.inj_add, zeros_length by assumption. fold len.
      split; [apply Forall_app; split; [exact D|apply zeros_digits]|]. split; [now destruct ds|]. split.
      * rewrite digits_val_app, V, zeros_length by assumption. unfold zeros. rewrite digits_val_zeros. lia.
      * rewrite Z.pow_add_r by lia. split; [nia|]. left. replace (len + p - 1) with ((len - 1) + p) by lia. rewrite Z.pow_add_r by lia. nia.
    + change (digits_val []) with 0. rewrite Ei, Z.mod_mul by lia. lia.
  - (* a fraction of [-p] digits *)
    set (q := - p) in *. assert (Pq : 0 < 10 ^ q) by (apply Z.pow_pos_nonneg; lia).
    assert (Pkq : 0 < 10 ^ (k - q)) by (apply Z.pow_pos_nonneg; lia).
    assert (E10 : 10 ^ k = 10 ^ q * 10 ^ (k - q)) by (rewrite <- Z.pow_add_r by lia; f_equal; lia).
    assert (EC : C = c * 10 ^ (k - q)) by (rewrite HC; do 2 f_equal; lia).
    assert (Ediv : C / 10 ^ k = c / 10 ^ q) by (rewrite EC, E10, Z.div_mul_cancel_r by lia; reflexivity).
    assert (Emod : C mod 10 ^ k = (c mod 10 ^ q) * 10 ^ (k - q)) by (rewrite EC, E10, Z.mul_mod_distr_r by lia; reflexivity).
    assert (Ld : last ds 49%N <> 48%N).
    { intros E. pose proof (last_digit ds D Hne) as LD. rewrite V, E in LD. change (digit_val 48%N) with 0 in LD. lia. }
    destruct (Z.ltb_spec q len) as [Hq|Hq].
    + set (j := Z.to_nat (len + p)). assert (Lf : Z.of_nat (List.length (skipn j ds)) = q) by (rewrite skipn_length; lia).
      assert (Lj : Z.of_nat (List.length (firstn j ds)) = len - q) by (rewrite firstn_length; lia).
      assert (Fi : all_digits (firstn j ds)) by now apply Forall_firstn. assert (Fs : all_digits (skipn j ds)) by now apply Forall_skipn.
      assert (Sp : c = digits_val (firstn j ds) * 10 ^ q + digits_val (skipn j ds)) by (rewrite <- Lf, <- digits_val_app, firstn_skipn; now symmetry).
      pose proof (digits_val_bound _ Fs) as Bs. rewrite Lf in Bs. pose proof (digits_val_bound _ Fi) as Bi. rewrite Lj in Bi.
      assert (Dv : c / 10 ^ q = digits_val (firstn j ds)) by (rewrite Sp; symmetry; apply Z.div_unique with (digits_val (skipn j ds)); lia).
      assert (Md : c mod 10 ^ q = digits_val (skipn j ds)) by (rewrite Sp; symmetry; apply Z.mod_unique with (digits_val (firstn j ds)); lia).
      exists (firstn j ds), (skipn j ds). split.
      * destruct (skipn j ds) eqn:Es; [cbn in Lf; lia|reflexivity].
      * split; [|split; [exact Fs|split; [unfold str, char in *; lia|split]]].
        -- unfold digits_of. rewrite Ediv, Dv, Lj. split; [exact Fi|]. split; [intros E; rewrite E in Lj; cbn in Lj; lia|]. split; [reflexivity|]. split; [lia|].
           left. assert (10 ^ (len - 1) = 10 ^ (len - q - 1) * 10 ^ q) by (rewrite <- Z.pow_add_r by lia; f_equal; lia).
           assert (10 ^ (len - q - 1) * 10 ^ q < (digits_val (firstn j ds) + 1) * 10 ^ q) by lia. nia.
        -- rewrite Lf, Emod, Md. reflexivity.
        -- intros E. apply Ld. rewrite <- (firstn_skipn j ds). rewrite last_app_ne; [exact E|]. intros E2. rewrite E2 in Lf. cbn in Lf. lia.
    + assert (Cq : c < 10 ^ q) by (apply Z.lt_le_trans with (10 ^ len); [lia|apply Z.pow_le_mono_r; lia]).
      assert (Lz : Z.of_nat (List.length (zeros (q - len) ++ ds)) = q) by (rewrite app_length, Nat2Z.inj_add, zeros_length; lia).
      exists [48%N], (zeros (q - len) ++ ds). split.
      * destruct (zeros (q - len) ++ ds) eqn:Es; [apply app_eq_nil in Es; tauto|reflexivity].
      * split; [|split; [apply Forall_app; split; [apply zeros_digits|exact D]|split; [unfold str, char in *; lia|split]]].
        -- rewrite Ediv, Z.div_small by lia. repeat split; [now constructor|discriminate|now right].
        -- rewrite Lz, Emod, Z.mod_small by lia. f_equal. rewrite digits_val_app, V. unfold zeros. rewrite digits_val_zeros. lia.
        -- now rewrite last_app_ne by exact Hne.
Qed.

(** The text of the binary64 nearest to a decimal of at most 15 digits is that
    decimal. *)
Theorem show_decimal15 x M k : fvalid x = true -> fis_finite x = true -> 0 <= k <= 20 -> M <> 0 -> Z.abs M < 10 ^ 15 ->
  fR x = RN (IZR M / IZR (10 ^ k)) -> plain_decimal (show_f64 x) (M <? 0) (Z.abs M) k.
Proof.
  intros Hx Fx Hk HM0 HM HR. assert (PT : (0 < IZR (10 ^ k))%R) by (apply IZR_lt, Z.pow_pos_nonneg; lia).
  set (d := (IZR (Z.abs M) / IZR (10 ^ k))%R).
  assert (Dd : d = decR (Z.abs M) (- k)) by (unfold d, decR; rewrite bpow_opp, b10_IZR by lia; reflexivity).
  assert (Pd : (b10 (-20) <= d)%R).
  { rewrite Dd. unfold decR. rewrite <- (Rmult_1_l (b10 (-20))). apply Rmult_le_compat; [lra|apply bpow_ge_0|apply IZR_le; lia|apply bpow_le; lia]. }
  assert (T20 : (bpow radix2 (-1021) < b10 (-20))%R).
  { apply Rlt_le_trans with (bpow radix2 (-67)); [apply bpow_lt; lia|]. change (-67) with (- (67)). change (-20) with (- (20)). rewrite !bpow_opp. apply Rinv_le; [apply b10_gt0|].
    rewrite b10_IZR by lia. rewrite <- (IZR_Zpower radix2) by lia. apply IZR_le. apply Z.leb_le. vm_compute. reflexivity. }
  assert (T22 : (bpow radix2 (-1022) < bpow radix2 (-1021))%R) by (apply bpow_lt; lia).
  assert (HRd : RN d = Rabs (fR x)).
  { rewrite HR. unfold RN. rewrite <- round_NE_abs by typeclasses eauto. f_equal. unfold d, Rdiv. now rewrite Rabs_mult, (Rabs_pos_eq (/ _)), <- abs_IZR by (apply Rlt_le, Rinv_0_lt_compat; lra). }
  assert (P21 : RN (bpow radix2 (-1021)) = bpow radix2 (-1021)) by (apply round_generic; [typeclasses eauto|apply generic_format_bpow; cbn; lia]).
  assert (Pf : (bpow radix2 (-1021) <= Rabs (fR x))%R) by (rewrite <- HRd, <- P21; apply RN_le; lra).
  assert (P22 : RN (bpow radix2 (-1022)) = bpow radix2 (-1022)) by (apply round_generic; [typeclasses eauto|apply generic_format_bpow; cbn; lia]).
  pose proof (bpow_gt_0 radix2 (-1021)) as B21.
  destruct x as [s|s| |s m e]; try discriminate.
  { exfalso. unfold fR in Pf. cbn [SF2R] in Pf. rewrite Rabs_R0 in Pf. lra. }
  assert (Es : s = (M <? 0)).
  { assert (Sg : (0 < fR (S754_finite false m e))%R) by apply v_pos.
    assert (Sn : fR (S754_finite true m e) = (- fR (S754_finite false m e))%R) by (unfold fR, SF2R; rewrite <- F2R_Zopp; reflexivity).
    destruct (Z.ltb_spec M 0) as [H|H]; destruct s; try reflexivity; exfalso.
    - assert (RN (IZR M / IZR (10 ^ k)) <= RN 0)%R; [|rewrite RN_0 in *; lra]. apply RN_le. unfold Rdiv. rewrite <- (Rmult_0_l (/ IZR (10 ^ k))).
      apply Rmult_le_compat_r; [apply Rlt_le, Rinv_0_lt_compat; lra|]. apply (IZR_le M 0). lia.
    - assert (RN 0 <= RN (IZR M / IZR (10 ^ k)))%R; [|rewrite RN_0 in *; lra]. apply RN_le. unfold Rdiv. rewrite <- (Rmult_0_l (/ IZR (10 ^ k))).
      apply Rmult_le_compat_r; [apply Rlt_le, Rinv_0_lt_compat; lra|]. apply (IZR_le 0 M). lia. }
  rewrite <- Es. cbn [show_f64]. rewrite (fvalid_sign s false) in Hx.
  assert (Av : Rabs (fR (S754_finite s m e)) = fR (S754_finite false m e)).
  { unfold fR, SF2R. rewrite <- F2R_Zabs. now destruct s. }
  rewrite Av in *. pose proof (shortest_spec m e Hx) as SS. destruct (shortest m e) as [c p]. destruct SS as (Hc & Hcan & Hr & Hmin).
  apply render_plain; [lia|exact Hcan|lia|]. fold d. rewrite Dd in *.
  apply digits15_apart.
  - split; [lia|]. apply (Hmin 15 (Z.abs M) (- k)); [lia|exact HRd].
  - lia.
  - destruct (Rle_or_lt (bpow radix2 (-1022)) (decR c p)) as [H|H]; [exact H|exfalso]. apply Rlt_le, RN_le in H. rewrite P22 in H. lra.
  - lra.
  - now rewrite Hr, HRd.
Qed.
