(** * DecimalShort: [shortest] finds the shortest decimal that reads back. *)
From Coq Require Import List NArith ZArith Bool Lia Arith SpecFloat Reals Lra.
From Flocq Require Import Core Relative IEEE754.BinarySingleNaN.
From Verif Require Import Base F64 FloatFacts DecimalText DecimalFloat.
Import ListNotations.
Local Open Scope Z_scope.

Notation b10 := (bpow radix10).
Lemma b10_gt0 p : (0 < b10 p)%R. Proof. apply bpow_gt_0. Qed.
Lemma b10_IZR p : 0 <= p -> b10 p = IZR (10 ^ p).
Proof. intros. symmetry. now apply (IZR_Zpower radix10). Qed.
Lemma b10_plus p q : b10 (p + q) = (b10 p * b10 q)%R. Proof. apply bpow_plus. Qed.
Lemma decR_scale c p q : q <= p -> decR c p = (IZR (c * 10 ^ (p - q)) * b10 q)%R.
Proof.
  intros H. unfold decR. rewrite mult_IZR, <- b10_IZR by lia. rewrite Rmult_assoc, <- b10_plus. do 2 f_equal. lia.
Qed.
Lemma decR_gt0 c p : 0 < c -> (0 < decR c p)%R.
Proof. intros. apply Rmult_lt_0_compat; [now apply IZR_lt|apply b10_gt0]. Qed.

(** ** The decimal exponent *)
Lemma num_digits z : 0 < z -> let L := Z.of_nat (List.length (show_nonneg z)) in 1 <= L /\ 10 ^ (L - 1) <= z < 10 ^ L.
Proof.
  intros Hz. destruct (show_digits z ltac:(lia)) as (_ & Hne & _ & U & Lo). cbv zeta.
  assert (List.length (show_nonneg z) <> 0%nat) by (destruct (show_nonneg z); [congruence|discriminate]). split; [unfold str, char in *; lia|]. split; [|exact U].
  destruct Lo as [Lo|Lo]; [exact Lo|]. unfold str, char in *. rewrite Lo. cbn. lia.
Qed.
Lemma dec_exp_spec num den : 0 < num -> 0 < den -> let k := dec_exp num den in
  (b10 (k - 1) <= IZR num / IZR den < b10 k)%R.
Proof.
  intros Hn Hd. cbv zeta. assert (Hd' : (0 < IZR den)%R) by now apply IZR_lt. assert (Hn' : (0 < IZR num)%R) by now apply IZR_lt.
  unfold dec_exp. destruct (Z.leb_spec den num) as [H|H].
  - assert (1 <= num / den) by (apply Z.div_le_lower_bound; lia). destruct (num_digits (num / den) ltac:(lia)) as (H1 & H2 & H3).
    set (L := Z.of_nat _) in *. rewrite !b10_IZR by lia. pose proof (Z.div_mod num den ltac:(lia)). pose proof (Z.mod_pos_bound num den ltac:(lia)).
    split.
    + apply Rmult_le_reg_r with (IZR den); [assumption|]. unfold Rdiv. rewrite Rmult_assoc, Rinv_l, Rmult_1_r, <- mult_IZR by lra. apply IZR_le. nia.
    + apply Rmult_lt_reg_r with (IZR den); [assumption|]. unfold Rdiv. rewrite Rmult_assoc, Rinv_l, Rmult_1_r, <- mult_IZR by lra. apply IZR_lt. nia.
  - assert (1 <= (den - 1) / num) by (apply Z.div_le_lower_bound; lia). destruct (num_digits ((den - 1) / num) ltac:(lia)) as (H1 & H2 & H3).
    set (L := Z.of_nat _) in *. pose proof (Z.div_mod (den - 1) num ltac:(lia)). pose proof (Z.mod_pos_bound (den - 1) num ltac:(lia)).
    replace (1 - L - 1) with (- L) by lia. replace (1 - L) with (- (L - 1)) by lia. rewrite !bpow_opp, !b10_IZR by lia.
    assert (P1 : (0 < IZR (10 ^ L))%R) by (apply IZR_lt; apply Z.pow_pos_nonneg; lia).
    assert (P2 : (0 < IZR (10 ^ (L - 1)))%R) by (apply IZR_lt; apply Z.pow_pos_nonneg; lia).
    split.
    + apply Rmult_le_reg_r with (IZR den * IZR (10 ^ L))%R; [now apply Rmult_lt_0_compat|].
      replace (/ IZR (10 ^ L) * (IZR den * IZR (10 ^ L)))%R with (IZR den) by (field; lra).
      replace (IZR num / IZR den * (IZR den * IZR (10 ^ L)))%R with (IZR num * IZR (10 ^ L))%R by (field; lra).
      rewrite <- mult_IZR. apply IZR_le. nia.
    + apply Rmult_lt_reg_r with (IZR den * IZR (10 ^ (L - 1)))%R; [now apply Rmult_lt_0_compat|].
      replace (/ IZR (10 ^ (L - 1)) * (IZR den * IZR (10 ^ (L - 1))))%R with (IZR den) by (field; lra).
      replace (IZR num / IZR den * (IZR den * IZR (10 ^ (L - 1))))%R with (IZR num * IZR (10 ^ (L - 1)))%R by (field; lra).
      rewrite <- mult_IZR. apply IZR_lt. nia.
Qed.
Lemma mag_ratio_value m e : (IZR (fst (mag_ratio m e)) / IZR (snd (mag_ratio m e)))%R = fR (S754_finite false m e).
Proof.
  unfold mag_ratio, fR, SF2R, F2R. cbn [cond_Zopp Fnum Fexp]. destruct (Z.ltb_spec e 0) as [E|E]; cbn [fst snd].
  - replace e with (- (- e)) at 2 by lia. rewrite bpow_opp. unfold Rdiv. do 2 f_equal. apply (IZR_Zpower radix2). lia.
  - rewrite mult_IZR. unfold Rdiv. rewrite Rinv_1, Rmult_1_r. f_equal. now apply (IZR_Zpower radix2).
Qed.

(** ** The candidates *)
Lemma strip_value f c p : 0 <= c -> let '(c', p') := strip_zeros f c p in decR c' p' = decR c p.
Proof.
  intros H. pose proof (strip_zeros_spec f c p H) as G. destruct (strip_zeros f c p) as [c' p']. destruct G as (_ & _ & G1 & G2).
  rewrite (decR_scale c' p' p G1), G2. reflexivity.
Qed.
Lemma strip_le f : forall c p, 0 <= c -> fst (strip_zeros f c p) <= c.
Proof.
  intros c p H. pose proof (strip_zeros_spec f c p H) as G. destruct (strip_zeros f c p) as [c' p']. destruct G as (G0 & _ & G1 & G2). cbn.
  assert (1 <= 10 ^ (p' - p)) by (assert (0 < 10 ^ (p' - p)) by (apply Z.pow_pos_nonneg; lia); lia). nia.
Qed.
Lemma strip_bound (n : nat) c p : (0 < n)%nat -> 0 <= c <= 10 ^ Z.of_nat n -> fst (strip_zeros n c p) < 10 ^ Z.of_nat n.
Proof.
  intros Hn Hc. destruct n as [|n]; [lia|]. rewrite Nat2Z.inj_succ, Z.pow_succ_r in * by lia. cbn [strip_zeros].
  assert (0 < 10 ^ Z.of_nat n) by (apply Z.pow_pos_nonneg; lia).
  destruct ((10 <=? c) && (c mod 10 =? 0))%bool eqn:E.
  - assert (c / 10 <= 10 ^ Z.of_nat n) by (apply Z.div_le_upper_bound; lia). pose proof (strip_le n (c / 10) (p + 1) ltac:(apply Z.div_pos; lia)). lia.
  - cbn [fst]. apply andb_false_iff in E as [E|E]; [apply Z.leb_gt in E; lia|]. apply Z.eqb_neq in E.
    destruct (Z.eq_dec c (10 * 10 ^ Z.of_nat n)) as [->|]; [|lia]. rewrite Z.mul_comm, Z.mod_mul in E by lia. lia.
Qed.
Lemma strip_canonical f : forall c p, 0 <= c <= 10 ^ Z.of_nat f -> let '(c', _) := strip_zeros f c p in 10 <= c' -> c' mod 10 <> 0.
Proof.
  induction f as [|f IH]; intros c p H; cbn [strip_zeros]; [cbn in H; lia|].
  destruct ((10 <=? c) && (c mod 10 =? 0))%bool eqn:E.
  - apply IH. rewrite Nat2Z.inj_succ, Z.pow_succ_r in H by lia. split; [apply Z.div_pos; lia|apply Z.div_le_upper_bound; lia].
  - apply andb_false_iff in E as [E|E]; [apply Z.leb_gt in E; lia|]. apply Z.eqb_neq in E. auto.
Qed.

Section Candidates.
Variables (num den : Z).
Hypotheses (Hnum : 0 < num) (Hden : 0 < den).
Let v := (IZR num / IZR den)%R.
Let k := dec_exp num den.
Variable n : Z.
Hypothesis Hn : 1 <= n.

(** The two neighbours of the number on the grid of [n]-digit decimals. *)
Lemma candidates_spec : exists lo hi : Z,
  (forall cp, In cp (candidates num den k n) <-> cp = strip_zeros (Z.to_nat n) lo (k - n) \/ cp = strip_zeros (Z.to_nat n) hi (k - n)) /\
  10 ^ (n - 1) <= lo /\ hi <= 10 ^ n /\ lo <= hi /\
  (IZR lo * b10 (k - n) <= v <= IZR hi * b10 (k - n))%R /\
  (forall z : Z, (IZR z * b10 (k - n) <= v)%R -> z <= lo) /\ (forall z : Z, (v <= IZR z * b10 (k - n))%R -> hi <= z) /\
  hi <= lo + 1.
Proof.
  unfold candidates. set (ab := if n - k <? 0 then _ else _).
  assert (Hab : 0 < snd ab /\ 0 < fst ab /\ (IZR (fst ab) / IZR (snd ab) * b10 (k - n))%R = v).
  { assert (0 < IZR den)%R by now apply IZR_lt. unfold ab. destruct (Z.ltb_spec (n - k) 0) as [E|E]; cbn [fst snd].
    - assert (0 < 10 ^ (k - n)) by (apply Z.pow_pos_nonneg; lia). repeat split; [lia..|].
      rewrite mult_IZR, b10_IZR by lia. unfold v. assert (0 < IZR (10 ^ (k - n)))%R by now apply IZR_lt. field. lra.
    - assert (0 < 10 ^ (n - k)) by (apply Z.pow_pos_nonneg; lia). repeat split; [lia..|].
      replace (k - n) with (- (n - k)) by lia. rewrite bpow_opp, mult_IZR, b10_IZR by lia. unfold v. assert (0 < IZR (10 ^ (n - k)))%R by now apply IZR_lt. field. lra. }
  destruct ab as [a b]. cbn [fst snd] in Hab. destruct Hab as (Hb & Ha & Hv).
  set (lo := a / b). set (hi := if a mod b =? 0 then lo else lo + 1).
  pose proof (Z.div_mod a b ltac:(lia)) as DM. pose proof (Z.mod_pos_bound a b Hb) as MB. fold lo in DM.
  set (u := b10 (k - n)) in *. assert (Hu : (0 < u)%R) by apply b10_gt0.
  assert (Hb' : (0 < IZR b)%R) by now apply IZR_lt.
  assert (Le : forall z : Z, (IZR z * u <= v)%R <-> z * b <= a).
  { intros z. rewrite <- Hv. split; intros H.
    - apply Rmult_le_reg_r in H; [|assumption]. apply le_IZR. rewrite mult_IZR.
      apply (Rmult_le_compat_r (IZR b)) in H; [|lra]. unfold Rdiv in H. now rewrite Rmult_assoc, Rinv_l, Rmult_1_r in H by lra.
    - apply Rmult_le_compat_r; [lra|]. apply Rmult_le_reg_r with (IZR b); [assumption|]. unfold Rdiv. rewrite Rmult_assoc, Rinv_l, Rmult_1_r, <- mult_IZR by lra. now apply IZR_le. }
  assert (Ge : forall z : Z, (v <= IZR z * u)%R <-> a <= z * b).
  { intros z. rewrite <- Hv. split; intros H.
    - apply Rmult_le_reg_r in H; [|assumption]. apply le_IZR. rewrite mult_IZR.
      apply (Rmult_le_compat_r (IZR b)) in H; [|lra]. unfold Rdiv in H. now rewrite Rmult_assoc, Rinv_l, Rmult_1_r in H by lra.
    - apply Rmult_le_compat_r; [lra|]. apply Rmult_le_reg_r with (IZR b); [assumption|]. unfold Rdiv. rewrite Rmult_assoc, Rinv_l, Rmult_1_r, <- mult_IZR by lra. now apply IZR_le. }
  pose proof (dec_exp_spec num den Hnum Hden) as [K1 K2]. cbv zeta in K1, K2. fold v k in K1, K2.
  assert (Hlo : forall z, z * b <= a -> z <= lo) by (intros z H; apply Z.div_le_lower_bound; lia).
  assert (Hhi : forall z, a <= z * b -> hi <= z).
  { intros z H. unfold hi. destruct (Z.eqb_spec (a mod b) 0) as [E|E]; nia. }
  assert (Hhi' : a <= hi * b) by (unfold hi; destruct (Z.eqb_spec (a mod b) 0) as [E|E]; nia).
  exists lo, hi. repeat split.
  - destruct (b <=? 2 * (a mod b)); cbn [map In]; fold lo hi; intuition congruence.
  - destruct (b <=? 2 * (a mod b)); cbn [map In]; fold lo hi; intuition congruence.
  - apply Hlo, Le. replace (k - 1) with ((n - 1) + (k - n)) in K1 by lia. rewrite b10_plus, (b10_IZR (n - 1)) in K1 by lia. exact K1.
  - apply Hhi, Ge. replace k with (n + (k - n)) in K2 by lia. rewrite b10_plus, (b10_IZR n) in K2 by lia. now apply Rlt_le.
  - unfold hi. destruct (_ =? _); lia.
  - apply Le. nia.
  - apply Ge. exact Hhi'.
  - intros z H. now apply Hlo, Le.
  - intros z H. now apply Hhi, Ge.
  - unfold hi. destruct (_ =? _); lia.
Qed.
End Candidates.

Lemma RN_between x d w : RN d = w -> RN w = w -> (d <= x <= w \/ w <= x <= d)%R -> RN x = w.
Proof. intros H1 H2 [[H3 H4]|[H3 H4]]; apply RN_le in H3, H4; lra. Qed.

(** If some decimal with at most [n] digits reads back, one of the candidates
    does. *)
Section Short.
Variables (m : positive) (e : Z).
Hypothesis Hv : fvalid (S754_finite false m e) = true.
Let num := fst (mag_ratio m e).
Let den := snd (mag_ratio m e).
Let v := fR (S754_finite false m e).
Let k := dec_exp num den.
Lemma v_pos : (0 < v)%R. Proof. apply F2R_gt_0. reflexivity. Qed.
Let vE : (IZR num / IZR den)%R = v. Proof. apply mag_ratio_value. Qed.

Lemma candidate_reads n c p : 1 <= n -> 0 < c < 10 ^ n -> RN (decR c p) = v ->
  exists cp, In cp (candidates num den k n) /\ reads_back m e cp = true.
Proof.
  intros Hn Hc Hr. pose proof (mag_ratio_pos m e) as [Pn Pd]. fold num in Pn. fold den in Pd.
  destruct (candidates_spec num den Pn Pd n Hn) as (lo & hi & Hin & H1 & H2 & H3 & [H4 H5] & H6 & H7 & _). rewrite vE in *.
  fold k in Hin, H4, H5, H6, H7. set (u := b10 (k - n)) in *.
  assert (Pt : 0 < 10 ^ (n - 1)) by (apply Z.pow_pos_nonneg; lia).
  assert (G : exists z, (z = lo \/ z = hi) /\ RN (IZR z * u) = v).
  { assert (Rv : RN v = v) by now apply RN_id. destruct (Z.le_gt_cases (k - n) p) as [Hp|Hp].
    - rewrite (decR_scale c p (k - n) Hp) in Hr. fold u in Hr. set (z := c * 10 ^ (p - (k - n))) in *.
      destruct (Rle_or_lt (IZR z * u) v) as [Hz|Hz].
      + exists lo. split; [now left|]. apply (RN_between _ _ _ Hr Rv). left. split; [|assumption].
        apply Rmult_le_compat_r; [apply Rlt_le, b10_gt0|]. now apply IZR_le, H6.
      + exists hi. split; [now right|]. apply (RN_between _ _ _ Hr Rv). right. split; [assumption|].
        apply Rmult_le_compat_r; [apply Rlt_le, b10_gt0|]. apply IZR_le, H7. lra.
    - exists lo. split; [now left|]. apply (RN_between _ _ _ Hr Rv). left. split; [|assumption].
      apply Rle_trans with (IZR (10 ^ (n - 1)) * u)%R.
      + unfold decR, u. rewrite <- b10_IZR, <- b10_plus by lia.
        apply Rle_trans with (b10 (n + p)).
        * rewrite b10_plus, (b10_IZR n) by lia. apply Rmult_le_compat_r; [apply Rlt_le, b10_gt0|]. apply IZR_le. lia.
        * apply bpow_le. lia.
      + apply Rmult_le_compat_r; [apply Rlt_le, b10_gt0|]. now apply IZR_le. }
  destruct G as (z & Hz & HR). exists (strip_zeros (Z.to_nat n) z (k - n)). split; [apply Hin; destruct Hz as [->| ->]; auto|].
  pose proof (strip_value (Z.to_nat n) z (k - n) ltac:(lia)) as SV.
  pose proof (strip_zeros_spec (Z.to_nat n) z (k - n) ltac:(lia)) as SS. destruct (strip_zeros (Z.to_nat n) z (k - n)) as [c' p'].
  destruct SS as (_ & SS & _). specialize (SS ltac:(lia)). apply reads_back_dec; [lia|]. apply f_of_dec_reads; [assumption|assumption|].
  rewrite SV. exact HR.
Qed.

Lemma search_found f : forall n0 n c p, 1 <= n0 <= n -> n < n0 + Z.of_nat f -> 0 < c < 10 ^ n -> RN (decR c p) = v ->
  exists n1, n0 <= n1 <= n /\ In (search_digits f m e num den k n0) (candidates num den k n1).
Proof.
  induction f as [|f IH]; intros n0 n c p H0 H1 Hc Hr; [lia|]. cbn [search_digits].
  destruct (find (reads_back m e) (candidates num den k n0)) as [cp|] eqn:E.
  - exists n0. split; [lia|]. now apply find_some in E.
  - destruct (Z.eq_dec n0 n) as [->|].
    + destruct (candidate_reads n c p ltac:(lia) Hc Hr) as (cp & I & R). now rewrite (find_none _ _ E cp I) in R.
    + destruct (IH (n0 + 1) n c p) as (n2 & L & I); try lia; auto. exists n2. split; [lia|assumption].
Qed.
Lemma candidate_small n cp : 1 <= n -> In cp (candidates num den k n) ->
  0 < fst cp < 10 ^ n /\ (10 <= fst cp -> fst cp mod 10 <> 0).
Proof.
  intros Hn I. pose proof (mag_ratio_pos m e) as [Pn Pd]. fold num in Pn. fold den in Pd.
  destruct (candidates_spec num den Pn Pd n Hn) as (lo & hi & Hin & H1 & H2 & H3 & _). fold k in Hin.
  assert (Pt : 0 < 10 ^ (n - 1)) by (apply Z.pow_pos_nonneg; lia).
  apply Hin in I. assert (Hz : exists z, 0 < z <= 10 ^ n /\ cp = strip_zeros (Z.to_nat n) z (k - n)).
  { destruct I as [-> | ->]; [exists lo|exists hi]; split; auto; lia. }
  destruct Hz as (z & Hz & ->). rewrite <- (Z2Nat.id n) in Hz by lia.
  pose proof (strip_bound (Z.to_nat n) z (k - n) ltac:(lia) ltac:(lia)) as SB.
  pose proof (strip_canonical (Z.to_nat n) z (k - n) ltac:(lia)) as SC.
  pose proof (strip_zeros_spec (Z.to_nat n) z (k - n) ltac:(lia)) as SS. destruct (strip_zeros (Z.to_nat n) z (k - n)) as [c' p']. cbn [fst] in *.
  rewrite Z2Nat.id in * by lia. split; [|exact SC]. split; [|exact SB]. now apply SS.
Qed.
End Short.

(** ** 17 digits always suffice *)
Lemma ulp_lower x : (bpow radix2 (-53) * Rabs x <= ulp radix2 (SpecFloat.fexp prec64 emax64) x)%R.
Proof.
  destruct (Req_dec x 0) as [->|Hx].
  - rewrite Rabs_R0, Rmult_0_r. apply ulp_ge_0.
  - rewrite ulp_neq_0 by assumption. unfold cexp. set (g := mag radix2 x).
    apply Rle_trans with (bpow radix2 (-53) * bpow radix2 g)%R.
    + apply Rmult_le_compat_l; [apply bpow_ge_0|]. apply Rlt_le, bpow_mag_gt.
    + rewrite <- bpow_plus. apply bpow_le. unfold SpecFloat.fexp, prec64. lia.
Qed.
Lemma RN_close v x : generic_format radix2 (SpecFloat.fexp prec64 emax64) v -> (0 < v)%R ->
  (Rabs (x - v) <= v / 20000000000000000)%R -> RN x = v.
Proof.
  intros Fv Pv Hx. apply Rabs_le_inv in Hx.
  assert (B : bpow radix2 (-53) = (/ 9007199254740992)%R) by reflexivity.
  apply Rle_antisym.
  - apply round_N_le_midp; [typeclasses eauto|exact Fv|]. rewrite succ_eq_pos by lra.
    pose proof (ulp_lower v) as U. rewrite B, Rabs_pos_eq in U by lra. lra.
  - apply round_N_ge_midp; [typeclasses eauto|exact Fv|].
    pose proof (pred_plus_ulp radix2 (SpecFloat.fexp prec64 emax64) v Pv Fv) as P.
    pose proof (pred_ge_0 radix2 (SpecFloat.fexp prec64 emax64) v Pv Fv) as P0.
    set (w := pred radix2 (SpecFloat.fexp prec64 emax64) v) in *.
    pose proof (ulp_lower w) as U. rewrite B, Rabs_pos_eq in U by lra.
    set (g := ulp radix2 (SpecFloat.fexp prec64 emax64) w) in *. 
    assert (0 < g)%R by (unfold g, w in *; destruct (Req_dec w 0) as [E|E]; [lra|lra]). lra.
Qed.
Lemma candidate_17 m e : fvalid (S754_finite false m e) = true ->
  let num := fst (mag_ratio m e) in let den := snd (mag_ratio m e) in
  exists cp, In cp (candidates num den (dec_exp num den) 17) /\ reads_back m e cp = true.
Proof.
  intros Hv num den. pose proof (mag_ratio_pos m e) as [Pn Pd]. fold num in Pn. fold den in Pd.
  destruct (candidates_spec num den Pn Pd 17 ltac:(lia)) as (lo & hi & Hin & H1 & H2 & H3 & [H4 H5] & _ & _ & H8).
  set (v := fR (S754_finite false m e)). assert (vE : (IZR num / IZR den)%R = v) by apply mag_ratio_value. rewrite vE in *.
  set (k := dec_exp num den) in *. set (u := b10 (k - 17)) in *. assert (Pu : (0 < u)%R) by apply b10_gt0.
  pose proof (dec_exp_spec num den Pn Pd) as [K1 _]. cbv zeta in K1. rewrite vE in K1. fold k in K1.
  replace (k - 1) with (16 + (k - 17)) in K1 by lia. rewrite b10_plus, (b10_IZR 16) in K1 by lia. fold u in K1. change (10 ^ 16) with 10000000000000000 in K1.
  assert (Pv : (0 < v)%R) by apply v_pos.
  assert (Fv : generic_format radix2 (SpecFloat.fexp prec64 emax64) v).
  { unfold v. destruct (to_bf _ Hv) as [b <-]. rewrite fR_bf. apply generic_format_B2R. }
  apply IZR_le in H8. rewrite plus_IZR in H8.
  assert (G : exists z, (z = lo \/ z = hi) /\ RN (IZR z * u) = v).
  { destruct (Rle_or_lt (v - IZR lo * u) (u / 2)) as [C|C].
    - exists lo. split; [now left|]. apply RN_close; [assumption..|]. apply Rabs_le. lra.
    - exists hi. split; [now right|]. apply RN_close; [assumption..|]. apply Rabs_le.
      assert (IZR hi * u <= (IZR lo + 1) * u)%R by (apply Rmult_le_compat_r; lra). lra. }
  assert (0 < 10 ^ (17 - 1)) by reflexivity.
  destruct G as (z & Hz & HR). exists (strip_zeros (Z.to_nat 17) z (k - 17)). split; [apply Hin; destruct Hz as [->| ->]; auto|].
  assert (Pz : 0 < z) by lia. clear -Hv Pz HR.
  pose proof (strip_value (Z.to_nat 17) z (k - 17) ltac:(lia)) as SV.
  pose proof (strip_zeros_spec (Z.to_nat 17) z (k - 17) ltac:(lia)) as SS. destruct (strip_zeros (Z.to_nat 17) z (k - 17)) as [c' p'].
  destruct SS as (_ & SS & _). specialize (SS ltac:(lia)). apply reads_back_dec; [lia|]. apply f_of_dec_reads; [assumption|assumption|].
  rewrite SV. exact HR.
Qed.
Lemma search_candidate m e num den k f : forall n0, (exists cp, In cp (candidates num den k (n0 + Z.of_nat f)) /\ reads_back m e cp = true) ->
  exists n1, n0 <= n1 <= n0 + Z.of_nat f /\ In (search_digits (S f) m e num den k n0) (candidates num den k n1).
Proof.
  induction f as [|f IH]; intros n0 H.
  - cbn [search_digits]. rewrite Z.add_0_r in H. exists n0. split; [lia|]. destruct (find _ _) as [cp|] eqn:E; [now apply find_some in E|].
    destruct H as (cp & I & R). now rewrite (find_none _ _ E cp I) in R.
  - cbn [search_digits]. destruct (find _ _) as [cp|] eqn:E; [exists n0; split; [lia|]; now apply find_some in E|].
    destruct (IH (n0 + 1)) as (n1 & L & I); [|exists n1; split; [lia|exact I]]. replace (n0 + 1 + Z.of_nat f) with (n0 + Z.of_nat (S f)) by lia. exact H.
Qed.

(** [shortest]: at most 17 digits, no trailing zero, reads back, and no decimal
    that reads back has fewer digits. *)
Theorem shortest_spec m e : fvalid (S754_finite false m e) = true -> let '(c, p) := shortest m e in
  0 < c < 10 ^ 17 /\ (10 <= c -> c mod 10 <> 0) /\ RN (decR c p) = fR (S754_finite false m e) /\
  forall n c' p', 0 < c' < 10 ^ n -> RN (decR c' p') = fR (S754_finite false m e) -> c < 10 ^ n.
Proof.
  intros Hv. pose proof (shortest_reads m e Hv) as SR. unfold shortest in *. pose proof (candidate_17 m e Hv) as H17. cbv zeta in H17.
  destruct (search_candidate m e (fst (mag_ratio m e)) (snd (mag_ratio m e)) (dec_exp (fst (mag_ratio m e)) (snd (mag_ratio m e))) 16 1) as (n1 & L & I); [exact H17|].
  pose proof (candidate_small m e n1 _ ltac:(lia) I) as S1. pose proof (search_found m e Hv 17 1) as SF. cbv zeta in SF.
  pose proof (candidate_small m e) as CS.
  destruct (mag_ratio m e) as [num den]. cbn [fst snd] in *. set (k := dec_exp num den) in *. change (S 16) with 17%nat in *.
  destruct (search_digits 17 m e num den k 1) as [c p]. cbn [fst snd] in *. destruct SR as [Hc SR].
  assert (10 ^ n1 <= 10 ^ 17) by (apply Z.pow_le_mono_r; lia).
  split; [lia|]. split; [tauto|]. split; [now apply f_of_dec_reads|].
  intros n c' p' Hc' HR. destruct (Z.le_gt_cases n 17) as [Hn|Hn].
  - destruct (Z.le_gt_cases 1 n) as [Hn1|Hn1].
    + destruct (SF n c' p') as (n2 & L2 & I2); [lia|lia|assumption|assumption|].
      destruct (CS n2 _ ltac:(lia) I2) as [C _]. cbn [fst] in C. assert (10 ^ n2 <= 10 ^ n) by (apply Z.pow_le_mono_r; lia). lia.
    + destruct (Z.eq_dec n 0) as [->|]; [cbn in Hc'; lia|]. rewrite Z.pow_neg_r in Hc' by lia. lia.
  - assert (10 ^ 17 <= 10 ^ n) by (apply Z.pow_le_mono_r; lia). lia.
Qed.

(** ** Decimals of at most 15 digits *)
(** They are told apart by binary64 (normal range). *)
Lemma digits15_apart c1 p1 c2 p2 : 0 < c1 < 10 ^ 15 -> 0 < c2 < 10 ^ 15 ->
  (bpow radix2 (-1022) <= decR c1 p1)%R -> (bpow radix2 (-1022) <= decR c2 p2)%R ->
  RN (decR c1 p1) = RN (decR c2 p2) -> decR c1 p1 = decR c2 p2.
Proof.
  (* wlog c1 p1 <= c2 p2 *)
  assert (Main : forall c1 p1 c2 p2, 0 < c1 < 10 ^ 15 -> 0 < c2 < 10 ^ 15 ->
    (bpow radix2 (-1022) <= decR c1 p1)%R -> (bpow radix2 (-1022) <= decR c2 p2)%R ->
    RN (decR c1 p1) = RN (decR c2 p2) -> (decR c1 p1 < decR c2 p2)%R -> False).
  { clear. intros c1 p1 c2 p2 H1 H2 N1 N2 HR Hlt.
    assert (Err : forall x, (bpow radix2 (-1022) <= x)%R -> (Rabs (RN x - x) <= / 9007199254740992 * x)%R).
    { intros x Hx. assert (0 < x)%R by (eapply Rlt_le_trans; [apply (bpow_gt_0 radix2)|exact Hx]).
      pose proof (relative_error_N_FLT radix2 (-1074) 53 eq_refl (fun n => negb (Z.even n)) x) as E.
      rewrite Rabs_pos_eq in E by lra. specialize (E Hx). change (/ 2 * bpow radix2 (- 53 + 1))%R with (/ 2 * / 4503599627370496)%R in E.
      replace (/ 9007199254740992)%R with (/ 2 * / 4503599627370496)%R by lra. exact E. }
    apply Err, Rabs_le_inv in N1. apply Err, Rabs_le_inv in N2. rewrite HR in N1. set (r := RN (decR c2 p2)) in *.
    assert (D : (decR c2 p2 - decR c1 p1 <= decR c1 p1 * (/ 4000000000000000))%R) by lra.
    (* the difference is at least one unit of the last of 15 digits *)
    assert (Gap : forall a q (b : Z) s, 0 < a < 10 ^ 15 -> 0 < b < 10 ^ 15 -> q <= s -> (decR a q <> decR b s)%R ->
       (Rabs (decR b s - decR a q) >= b10 q)%R).
    { clear. intros a q b s Ha Hb Hq Hd. rewrite (decR_scale b s q Hq) in *. unfold decR in *. rewrite <- Rmult_minus_distr_r, <- minus_IZR in *.
      rewrite Rabs_mult, (Rabs_pos_eq (b10 q)) by apply Rlt_le, b10_gt0. rewrite <- (Rmult_1_l (b10 q)) at 2. apply Rle_ge. apply Rmult_le_compat_r; [apply Rlt_le, b10_gt0|].
      rewrite <- abs_IZR. apply IZR_le. assert (a <> b * 10 ^ (s - q)) by (intros E; apply Hd; now rewrite E). lia. }
    change (10 ^ 15) with 1000000000000000 in *.
    destruct (Z.le_gt_cases p1 p2) as [Hp|Hp].
    - pose proof (Gap c1 p1 c2 p2 H1 H2 Hp ltac:(lra)) as G. rewrite Rabs_pos_eq in G by lra.
      assert (decR c1 p1 <= 1000000000000000 * b10 p1)%R by (apply Rmult_le_compat_r; [apply Rlt_le, b10_gt0|apply IZR_le; lia]). 
      pose proof (b10_gt0 p1). lra.
    - pose proof (Gap c2 p2 c1 p1 H2 H1 ltac:(lia) ltac:(lra)) as G. rewrite Rabs_left in G by lra.
      assert (decR c2 p2 <= 1000000000000000 * b10 p2)%R by (apply Rmult_le_compat_r; [apply Rlt_le, b10_gt0|apply IZR_le; lia]).
      pose proof (b10_gt0 p2). lra. }
  intros H1 H2 N1 N2 HR. destruct (Rtotal_order (decR c1 p1) (decR c2 p2)) as [H|[H|H]]; [exfalso; eauto|exact H|exfalso; eauto].
Qed.
