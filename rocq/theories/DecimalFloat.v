(** * DecimalFloat: what [parse_f64], [show_f64] and [show_sci_f64] mean. *)
From Coq Require Import List NArith ZArith Bool Lia Arith SpecFloat Reals Lra.
From Flocq Require Import Core IEEE754.BinarySingleNaN.
From Verif Require Import Base F64 FloatFacts DecimalText.
Import ListNotations.
Local Open Scope Z_scope.

Definition radix10 : radix := Build_radix 10 eq_refl.

(** [num/den] is rounded to the nearest binary64. *)
Lemma f_of_ratio_spec s num den : fvalid (f_of_ratio s num den) = true /\
  let x := (IZR (cond_Zopp s (Z.pos num)) / IZR (Z.pos den))%R in
  if Rlt_bool (Rabs (RN x)) (bpow radix2 emax64)
  then fR (f_of_ratio s num den) = RN x /\ fis_finite (f_of_ratio s num den) = true /\ fsign_neg (f_of_ratio s num den) = s
  else f_of_ratio s num den = S754_infinity s.
Proof.
  pose proof (Bdiv_correct_aux prec64 emax64 Hprec64 Hemax64 mode_NE s num 0 false den 0) as H. cbv zeta in H.
  rewrite xorb_false_r in H. unfold F2R in H. cbn [Fnum Fexp bpow] in H. rewrite !Rmult_1_r in H.
  cbn [cond_Zopp] in H.
  assert (E : f_of_ratio s num den = (let '(mz, ez, lz) := SFdiv_core_binary prec64 emax64 (Z.pos num) 0 (Z.pos den) 0 in
    BinarySingleNaN.binary_round_aux prec64 emax64 mode_NE s mz ez lz)).
  { unfold f_of_ratio. destruct (SFdiv_core_binary _ _ _ _ _ _) as [[mz ez] lz]. apply round_aux_equiv. }
  rewrite <- E in H. destruct H as [V H]. split; [exact V|]. cbv zeta.
  change (round radix2 _ _ ?x) with (RN x) in H. destruct (Rlt_bool _ _); [|destruct s; exact H].
  destruct H as (H1 & H2 & H3). split; [exact H1|]. split; [|exact H3]. now destruct (f_of_ratio s num den).
Qed.
Lemma round_aux_opp mz ez lz : SpecFloat.binary_round_aux prec64 emax64 true mz ez lz = fopp (SpecFloat.binary_round_aux prec64 emax64 false mz ez lz).
Proof.
  unfold SpecFloat.binary_round_aux. destruct (shr_fexp _ _ _ _ _) as [mrs' e']. destruct (shr_fexp _ _ _ _ _) as [mrs'' e''].
  destruct (shr_m mrs''); try reflexivity. now destruct (_ <=? _).
Qed.
Lemma f_of_ratio_opp num den : f_of_ratio true num den = fopp (f_of_ratio false num den).
Proof. unfold f_of_ratio. destruct (SFdiv_core_binary _ _ _ _ _ _) as [[mz ez] lz]. apply round_aux_opp. Qed.
Lemma f_of_dec_opp c p : f_of_dec true c p = fopp (f_of_dec false c p).
Proof. unfold f_of_dec. destruct c; try reflexivity. destruct (p <? 0); apply f_of_ratio_opp. Qed.

(** The decimal number [c * 10^p]. *)
Definition decR (c p : Z) : R := (IZR c * bpow radix10 p)%R.
Lemma decR_neg c p : p < 0 -> decR c p = (IZR c / IZR (10 ^ (- p)))%R.
Proof.
  intros H. unfold decR, Rdiv. f_equal. replace p with (- (- p)) at 1 by lia. rewrite bpow_opp. f_equal. symmetry. apply (IZR_Zpower radix10). lia.
Qed.
Lemma decR_pos c p : 0 <= p -> decR c p = IZR (c * 10 ^ p).
Proof. intros H. unfold decR. rewrite mult_IZR. f_equal. symmetry. now apply (IZR_Zpower radix10). Qed.
Lemma f_of_dec_spec s c p : 0 < c -> fvalid (f_of_dec s c p) = true /\
  let x := if s then (- decR c p)%R else decR c p in
  if Rlt_bool (Rabs (RN x)) (bpow radix2 emax64)
  then fR (f_of_dec s c p) = RN x /\ fis_finite (f_of_dec s c p) = true /\ fsign_neg (f_of_dec s c p) = s
  else f_of_dec s c p = S754_infinity s.
Proof.
  intros Hc. destruct c as [|c|c]; try lia. unfold f_of_dec.
  assert (G : forall num den, (IZR (Z.pos num) / IZR (Z.pos den) = decR (Z.pos c) p)%R ->
    (if s then - decR (Z.pos c) p else decR (Z.pos c) p)%R = (IZR (cond_Zopp s (Z.pos num)) / IZR (Z.pos den))%R).
  { intros num den <-. destruct s; [|reflexivity]. unfold cond_Zopp. rewrite opp_IZR. unfold Rdiv. ring. }
  destruct (p <? 0) eqn:E.
  - apply Z.ltb_lt in E. cbv zeta. rewrite (G c (Z.to_pos (10 ^ (- p)))); [apply f_of_ratio_spec|].
    rewrite decR_neg by assumption. rewrite Z2Pos.id by (apply Z.pow_pos_nonneg; lia). reflexivity.
  - apply Z.ltb_ge in E. cbv zeta. rewrite (G (c * Z.to_pos (10 ^ p))%positive 1%positive); [apply f_of_ratio_spec|].
    rewrite decR_pos by assumption. rewrite Pos2Z.inj_mul, Z2Pos.id by (apply Z.pow_pos_nonneg; lia). unfold Rdiv. rewrite Rinv_1. apply Rmult_1_r.
Qed.

(** ** Reading back *)
Lemma same_eq x y : f_same x y = true -> x = y.
Proof.
  destruct x, y; cbn; try discriminate; intros H; repeat (apply andb_true_iff in H as [H ?]);
    repeat match goal with
    | H : Bool.eqb _ _ = true |- _ => apply eqb_prop in H
    | H : Pos.eqb _ _ = true |- _ => apply Pos.eqb_eq in H
    | H : Z.eqb _ _ = true |- _ => apply Z.eqb_eq in H
    end; subst; reflexivity.
Qed.
Lemma strip_zeros_spec f : forall c p, 0 <= c -> let '(c', p') := strip_zeros f c p in
  0 <= c' /\ (0 < c -> 0 < c') /\ p <= p' /\ c' * 10 ^ (p' - p) = c.
Proof.
  induction f as [|f IH]; intros c p Hc; cbn [strip_zeros].
  - rewrite Z.sub_diag. repeat split; lia.
  - destruct ((10 <=? c) && (c mod 10 =? 0))%bool eqn:E; [|rewrite Z.sub_diag; repeat split; lia].
    apply andb_true_iff in E as [E1 E2]. apply Z.leb_le in E1. apply Z.eqb_eq in E2.
    pose proof (Z.div_mod c 10 ltac:(lia)) as DM.
    specialize (IH (c / 10) (p + 1) ltac:(lia)). destruct (strip_zeros f (c / 10) (p + 1)) as [c' p'].
    destruct IH as (H1 & H2 & H3 & H4). repeat split; try lia.
    replace (p' - p) with (Z.succ (p' - (p + 1))) by lia. rewrite Z.pow_succ_r by lia. lia.
Qed.
Lemma candidates_nonneg num den k n cp : 0 <= num -> 0 < den -> In cp (candidates num den k n) -> 0 <= fst cp.
Proof.
  intros Hn Hd. unfold candidates.
  set (ab := if n - k <? 0 then _ else _). assert (Hab : 0 <= fst ab /\ 0 < snd ab).
  { unfold ab. destruct (n - k <? 0) eqn:E; cbn; split; try apply Z.mul_nonneg_nonneg; try apply Z.mul_pos_pos; try assumption; apply Z.pow_nonneg || apply Z.pow_pos_nonneg; apply Z.ltb_lt in E || apply Z.ltb_ge in E; lia. }
  destruct ab as [a b]. cbn in Hab. intros H.
  assert (0 <= a / b) by (apply Z.div_pos; lia).
  apply in_map_iff in H as (c & <- & H). assert (Hc : 0 <= c).
  { destruct (b <=? 2 * (a mod b)), (a mod b =? 0); destruct H as [<-|[<-|[]]]; lia. }
  pose proof (strip_zeros_spec (Z.to_nat n) c (k - n) Hc) as G. destruct (strip_zeros _ _ _) as [c' p']. cbn. tauto.
Qed.
Lemma reads_back_dec m e c p : 0 <= c -> reads_back m e (c, p) = true <-> f_of_dec false c p = S754_finite false m e.
Proof.
  intros Hc. unfold reads_back. cbn [fst snd]. destruct (render_dec_chars c p Hc) as (_ & x & t & E & Hx).
  pose proof (render_dec_parse false c p Hc) as H. rewrite E in *. rewrite (parse_pos x t _ Hx H). split.
  - intros G. symmetry. now apply same_eq.
  - intros ->. cbn. now rewrite Pos.eqb_refl, Z.eqb_refl.
Qed.

Lemma f_unique x y : fvalid x = true -> fvalid y = true -> fis_finite x = true -> fis_finite y = true ->
  fR x = fR y -> fsign_neg x = fsign_neg y -> x = y.
Proof.
  intros Hx Hy. to_bfs. rewrite !finite_bf, !fR_bf. intros Fx Fy HR Hs.
  replace (fsign_neg (of_bf vx)) with (Bsign vx) in Hs by (now destruct vx).
  replace (fsign_neg (of_bf vy)) with (Bsign vy) in Hs by (now destruct vy).
  now rewrite (B2R_Bsign_inj _ _ vx vy Fx Fy HR Hs).
Qed.
(** A decimal number whose nearest binary64 is the finite [x] is read as [x]. *)
Lemma f_of_dec_reads m e c p : fvalid (S754_finite false m e) = true -> 0 < c ->
  f_of_dec false c p = S754_finite false m e <-> RN (decR c p) = fR (S754_finite false m e).
Proof.
  intros Hv Hc. destruct (f_of_dec_spec false c p Hc) as [V H]. cbv zeta iota in H. split; intros E.
  - destruct (Rlt_bool _ _); [|congruence]. destruct H as (H & _). now rewrite <- H, E.
  - rewrite E in H. rewrite Rlt_bool_true in H by now apply fR_lt_emax. destruct H as (H1 & H2 & H3).
    apply f_unique; auto.
Qed.

Lemma exact_dec_value m e : let '(c, p) := exact_dec m e in 0 < c /\ decR c p = fR (S754_finite false m e).
Proof.
  unfold exact_dec. cbn [fR]. unfold fR, SF2R, F2R. cbn [cond_Zopp Fnum Fexp]. destruct (e <? 0) eqn:E.
  - apply Z.ltb_lt in E. assert (0 < 5 ^ (- e)) by (apply Z.pow_pos_nonneg; lia). split; [lia|].
    rewrite decR_neg by assumption. replace (bpow radix2 e) with (/ IZR (2 ^ (- e)))%R.
    2:{ replace e with (- (- e)) at 2 by lia. rewrite bpow_opp. f_equal. apply (IZR_Zpower radix2). lia. }
    assert (0 < 2 ^ (- e)) by (apply Z.pow_pos_nonneg; lia).
    change 10 with (5 * 2). rewrite Z.pow_mul_l, !mult_IZR. field. split; apply IZR_neq; lia.
  - apply Z.ltb_ge in E. assert (0 < 2 ^ e) by (apply Z.pow_pos_nonneg; lia). split; [lia|].
    unfold decR. rewrite mult_IZR. cbn [bpow]. rewrite Rmult_1_r. f_equal. now apply (IZR_Zpower radix2).
Qed.
Lemma exact_dec_reads m e : fvalid (S754_finite false m e) = true -> let '(c, p) := exact_dec m e in
  0 < c /\ f_of_dec false c p = S754_finite false m e.
Proof.
  intros Hv. pose proof (exact_dec_value m e) as H. destruct (exact_dec m e) as [c p]. destruct H as [Hc H]. split; [exact Hc|].
  apply f_of_dec_reads; auto. rewrite H. now apply RN_id.
Qed.
Lemma mag_ratio_pos m e : 0 < fst (mag_ratio m e) /\ 0 < snd (mag_ratio m e).
Proof.
  unfold mag_ratio. destruct (Z.ltb_spec e 0) as [E|E]; cbn [fst snd]; split; try reflexivity.
  - apply Z.pow_pos_nonneg; lia.
  - apply Z.mul_pos_pos; [lia|]. apply Z.pow_pos_nonneg; lia.
Qed.
Lemma f_of_dec_zero p s : f_of_dec s 0 p = S754_zero s. Proof. reflexivity. Qed.
Lemma search_reads m e num den k f : fvalid (S754_finite false m e) = true -> 0 < num -> 0 < den -> forall n,
  let '(c, p) := search_digits f m e num den k n in 0 < c /\ f_of_dec false c p = S754_finite false m e.
Proof.
  intros Hv Hn Hd. induction f as [|f IH]; intros n; cbn [search_digits]; [now apply exact_dec_reads|].
  destruct (find _ _) as [[c p]|] eqn:E; [|apply IH]. apply find_some in E as [E1 E2].
  apply candidates_nonneg in E1; [|lia|lia]. cbn in E1. apply reads_back_dec in E2; [|assumption]. split; [|exact E2].
  destruct (Z.eq_dec c 0) as [->|]; [|lia]. discriminate E2.
Qed.
(** The digits printed for [m * 2^e] read back as [m * 2^e]. *)
Lemma shortest_reads m e : fvalid (S754_finite false m e) = true ->
  let '(c, p) := shortest m e in 0 < c /\ f_of_dec false c p = S754_finite false m e.
Proof.
  intros Hv. unfold shortest. pose proof (mag_ratio_pos m e) as H. destruct (mag_ratio m e) as [num den]. cbn in H. now apply search_reads.
Qed.

Lemma fvalid_sign s s' m e : fvalid (S754_finite s m e) = fvalid (S754_finite s' m e). Proof. reflexivity. Qed.
(** [Display] and [LowerExp] read back, for every finite number. *)
Theorem show_reads x : fvalid x = true -> fis_finite x = true -> parse_f64 (show_f64 x) = Some x.
Proof.
  destruct x as [[]|s| |s m e]; intros Hv Hf; try discriminate; [reflexivity..|]. cbn [show_f64].
  rewrite (fvalid_sign s false) in Hv. pose proof (shortest_reads m e Hv) as H. destruct (shortest m e) as [c p]. destruct H as [Hc H].
  destruct (render_dec_chars c p ltac:(lia)) as (_ & x & t & E & Hx). destruct s; cbn [app].
  - apply parse_neg; [now rewrite E|]. rewrite render_dec_parse by lia. now rewrite f_of_dec_opp, H.
  - rewrite E. apply parse_pos; [exact Hx|]. rewrite <- E, render_dec_parse by lia. now rewrite H.
Qed.
Lemma render_sci_first c p : 0 <= c -> exists x t, render_sci c p = x :: t /\ is_digit x = true.
Proof.
  intros Hc. destruct (show_digits c Hc) as (D & Hne & _). unfold render_sci. destruct (show_nonneg c) as [|x t]; [congruence|].
  assert (is_digit x = true) by now inversion D. destruct t as [|y t]; eexists _, _; split; try reflexivity; assumption.
Qed.
Theorem show_sci_reads x : fvalid x = true -> fis_finite x = true -> parse_f64 (show_sci_f64 x) = Some x.
Proof.
  destruct x as [[]|s| |s m e]; intros Hv Hf; try discriminate; [reflexivity..|]. cbn [show_sci_f64].
  rewrite (fvalid_sign s false) in Hv. pose proof (shortest_reads m e Hv) as H. destruct (shortest m e) as [c p]. destruct H as [Hc H].
  destruct (render_sci_first c p ltac:(lia)) as (x & t & E & Hx). pose proof (render_sci_parse s c p ltac:(lia)) as G.
  destruct s; cbn [app].
  - apply parse_neg; [now rewrite E|]. now rewrite G, f_of_dec_opp, H.
  - unfold parse_f64. change (N.eqb 43 45) with false. change (N.eqb 43 43) with true. cbv iota. rewrite G, H, E. reflexivity.
Qed.
