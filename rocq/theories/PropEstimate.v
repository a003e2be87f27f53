(** * PropEstimate: C75 - error bounds for arithmetic expressions of any size in
    binary64; C76 - what [eq] returns nearly solves the real equations. *)
From Coq Require Import List NArith ZArith Bool String Arith Lia SpecFloat Reals Lra.
From Flocq Require Import Core IEEE754.BinarySingleNaN Relative.
From Verif Require Import Base BaseFacts F64 Num Types Maths Eval EvalFuel SpecEval EvalProofs PropEval CalcSpec SolveSpec SolveProofs
  FloatFacts DecimalFloat PropNumber PropSolve SolveFloat PropRounding PropResults GrammarSpec ShapeSpec Parser EstimateSpec Toy.
Import ListNotations.
Local Open Scope list_scope.

Notation ur := unit_roundoff.
Lemma ur_u : ur = u. Proof. reflexivity. Qed.
Lemma tiny_eta : tiny = eta. Proof. reflexivity. Qed.

Lemma div_error x y : fvalid x = true -> fvalid y = true -> fis_finite x = true -> (fR y <> 0)%R -> fis_finite (fdiv x y) = true ->
  (Rabs (fR (fdiv x y) - fR x / fR y) <= u * Rabs (fR x / fR y) + eta)%R.
Proof.
  intros Vx Vy Fx Fy F. pose proof (fdiv_spec x y Vx Vy Fx Fy) as H. cbv zeta in H.
  assert (E : fR (fdiv x y) = RN (fR x / fR y)).
  { destruct (Rlt_bool _ _); [apply H|]. rewrite H in F. discriminate. }
  rewrite E. clear H E. set (v := (fR x / fR y)%R).
  destruct (relative_error_N_FLT'_ex radix2 (3 - emax64 - prec64) prec64 ltac:(reflexivity) (fun x => negb (Z.even x)) v) as (d & e & Hd & He & _ & G).
  rewrite u_ro_u in Hd. assert (R : RN v = (v * (1 + d) + e)%R) by exact G. rewrite R. replace (v * (1 + d) + e - v)%R with (d * v + e)%R by ring.
  eapply Rle_trans; [apply Rabs_triang|]. rewrite Rabs_mult. apply Rplus_le_compat.
  - apply Rmult_le_compat_r; [apply Rabs_pos|]. pose proof u_small. lra.
  - eapply Rle_trans; [exact He|]. right. unfold eta. change (3 - emax64 - prec64)%Z with (Z.opp 1074). rewrite bpow_opp, <- (IZR_Zpower radix2 1074) by lia.
    change (IZR (radix2 ^ 1074)) with (IZR (2 ^ 1074)). rewrite (pow_IZR 2 1075).
    replace (2 ^ Z.of_nat 1075)%Z with (2 * 2 ^ 1074)%Z by (change (Z.of_nat 1075) with (Z.succ 1074); now rewrite Z.pow_succ_r by lia).
    rewrite mult_IZR, Rinv_mult. reflexivity.
Qed.
Lemma fopp_R y : fR (fopp y) = (- fR y)%R.
Proof. destruct y as [s|s| |s m e]; cbn [fopp SFopp]; unfold fR; cbn [SF2R]; try lra. rewrite <- F2R_Zopp. f_equal. now destruct s. Qed.
Lemma fdiv_finite x y : fis_finite y = true -> fis_finite (fdiv x y) = true -> fis_finite x = true.
Proof. destruct x as [?|?| |? ? ?], y as [?|?| |? ? ?]; cbn; auto; discriminate. Qed.

(** ** Combining bounds *)
(** [x] is within the bound of [e]; and it is finite if nothing can overflow. *)
Record within (e : estimate) (x : f64) : Prop := mkWithin {
  w_valid : fvalid x = true;
  w_mag : (Rabs (exact e) <= magnitude e)%R;
  w_room : (magnitude e <= room e)%R;
  w_peak : (reach e <= peak e)%R;
  w_err : fis_finite x = true -> (Rabs (fR x - exact e) <= error_bound e)%R;
  w_fin : (peak e < overflow_threshold)%R -> fis_finite x = true }.

Lemma ur_pos : (0 < ur)%R. Proof. exact u_pos. Qed.
Lemma pow_ge1 n : (1 <= (1 + ur) ^ n)%R. Proof. apply pow_R1_Rle. pose proof ur_pos. lra. Qed.
Lemma pow_mono n m : n <= m -> ((1 + ur) ^ n <= (1 + ur) ^ m)%R.
Proof. intros H. apply Rle_pow; [|exact H]. pose proof ur_pos. lra. Qed.

Lemma w_pos e x : within e x -> (0 <= magnitude e)%R.
Proof. intros H. pose proof (w_mag _ _ H). pose proof (Rabs_pos (exact e)). lra. Qed.
Lemma w_bound e x : within e x -> fis_finite x = true -> (Rabs (fR x) <= reach e)%R.
Proof.
  intros H F. pose proof (w_err _ _ H F) as E. pose proof (w_mag _ _ H). unfold error_bound in E.
  pose proof (Rabs_triang (fR x - exact e) (exact e)) as T. replace (fR x - exact e + exact e)%R with (fR x) in T by ring. lra.
Qed.

Lemma within_double x : fvalid x = true -> fis_finite x = true -> within (of_double x) x.
Proof.
  intros V F. split; cbn [exact magnitude room peak of_double]; auto; try lra.
  - unfold reach. cbn. lra.
  - intros _. unfold error_bound, reach. cbn [exact magnitude room steps of_double]. change ((1 + ur) ^ 0)%R with 1%R. rewrite Rminus_diag_eq, Rabs_R0 by reflexivity. lra.
Qed.
Lemma within_neg e x : within e x -> within (est_neg e) (fopp x).
Proof.
  intros [H1 H2 H3 H4 H5 H6]. split; cbn [exact magnitude room peak steps est_neg]; auto.
  - now apply fopp_valid.
  - now rewrite Rabs_Ropp.
  - intros F. assert (F' : fis_finite x = true) by now destruct x. rewrite fopp_R.
    replace (- fR x - - exact e)%R with (- (fR x - exact e))%R by ring. rewrite Rabs_Ropp. now apply H5.
  - intros P. specialize (H6 P). now destruct x.
Qed.
Definition fabs' (x : f64) : f64 := if fltb x f0 then fmul x fm1 else x.
Lemma within_abs e x : within e x -> within (est_abs e) (fabs' x).
Proof.
  intros [H1 H2 H3 H4 H5 H6].
  assert (V : fvalid (fabs' x) = true).
  { unfold fabs'. destruct (fltb x f0); [|exact H1]. apply fmul_valid; [exact H1|apply fm1_valid]. }
  assert (F : fis_finite (fabs' x) = fis_finite x).
  { unfold fabs'. destruct (fltb x f0); [|reflexivity]. rewrite fmul_m1 by exact H1. now destruct x. }
  split; cbn [exact magnitude room peak steps est_abs]; auto.
  - now rewrite Rabs_Rabsolu.
  - rewrite F. intros Fx. specialize (H5 Fx).
    assert (E : fR (fabs' x) = Rabs (fR x)).
    { unfold fabs'. pose proof (fltb_spec x f0 H1 f0_valid Fx eq_refl) as L. rewrite fR_f0 in L.
      destruct (fltb x f0).
      - rewrite fmul_m1 by exact H1. rewrite fopp_R. symmetry. apply Rabs_left. now apply L.
      - symmetry. apply Rabs_pos_eq. apply Rnot_lt_le. intros G. apply L in G. discriminate. }
    rewrite E. eapply Rle_trans; [apply Rabs_triang_inv2|exact H5].
  - intros P. rewrite F. now apply H6.
Qed.
Lemma peak_l e1 e2 v m M d : (peak (with_peak e1 e2 v m M d) < overflow_threshold)%R ->
  (peak e1 < overflow_threshold /\ peak e2 < overflow_threshold /\ (1 + ur) ^ d * M < overflow_threshold)%R.
Proof.
  cbn [peak with_peak]. intros H. pose proof (Rmax_l (Rmax (peak e1) (peak e2)) ((1 + ur) ^ d * M)).
  pose proof (Rmax_r (Rmax (peak e1) (peak e2)) ((1 + ur) ^ d * M)). pose proof (Rmax_l (peak e1) (peak e2)). pose proof (Rmax_r (peak e1) (peak e2)). lra.
Qed.

Lemma within_add e1 e2 x y : within e1 x -> within e2 y -> within (est_add e1 e2) (fadd x y).
Proof.
  intros W1 W2. pose proof (w_pos _ _ W1) as P1. pose proof (w_pos _ _ W2) as P2. pose proof (w_room _ _ W1) as R1. pose proof (w_room _ _ W2) as R2.
  pose proof (w_mag _ _ W1) as M1. pose proof (w_mag _ _ W2) as M2. pose proof ur_pos as U.
  set (k := Nat.max (steps e1) (steps e2)). 
  pose proof (pow_mono _ _ (Nat.le_max_l (steps e1) (steps e2))) as G1. pose proof (pow_mono _ _ (Nat.le_max_r (steps e1) (steps e2))) as G2.
  fold k in G1, G2. pose proof (pow_ge1 k) as G.
  assert (Q1 : (reach e1 <= (1 + ur) ^ k * room e1)%R) by (apply Rmult_le_compat_r; lra).
  assert (Q2 : (reach e2 <= (1 + ur) ^ k * room e2)%R) by (apply Rmult_le_compat_r; lra).
  set (g := ((1 + ur) ^ k)%R) in *.
  assert (Fin : (peak (est_add e1 e2) < overflow_threshold)%R -> fis_finite x = true -> fis_finite y = true -> fis_finite (fadd x y) = true).
  { intros P Fx Fy. apply peak_l in P as (_ & _ & P). eapply nearest_finite; [apply fadd_nearest; try assumption; [apply (w_valid _ _ W1)|apply (w_valid _ _ W2)]|].
    eapply Rle_lt_trans; [apply Rabs_triang|]. eapply Rle_lt_trans; [|exact P].
    pose proof (w_bound _ _ W1 Fx). pose proof (w_bound _ _ W2 Fy). fold k. change ((1 + ur) ^ S k)%R with ((1 + ur) * g)%R.
    assert ((g * (room e1 + room e2) <= (1 + ur) * g * (room e1 + room e2))%R); [|lra].
    apply Rmult_le_compat_r; [lra|]. nra. }
  split.
  - apply fadd_valid; [apply (w_valid _ _ W1)|apply (w_valid _ _ W2)].
  - cbn. pose proof (Rabs_triang (exact e1) (exact e2)). lra.
  - cbn. lra.
  - cbn [peak est_add with_peak]. apply Rmax_r.
  - intros F. destruct (fadd_finite _ _ F) as [Fx Fy].
    pose proof (add_error x y (w_valid _ _ W1) (w_valid _ _ W2) Fx Fy F) as E.
    pose proof (w_err _ _ W1 Fx) as E1. pose proof (w_err _ _ W2 Fy) as E2.
    unfold error_bound in *. cbn [exact magnitude est_add with_peak].
    assert (Er : reach (est_add e1 e2) = ((1 + ur) * g * (room e1 + room e2))%R) by reflexivity. rewrite Er.
    assert (S : (Rabs (fR x + fR y) <= g * (room e1 + room e2))%R).
    { pose proof (Rabs_triang (fR x) (fR y)). pose proof (w_bound _ _ W1 Fx). pose proof (w_bound _ _ W2 Fy). lra. }
    replace (fR (fadd x y) - (exact e1 + exact e2))%R with ((fR (fadd x y) - (fR x + fR y)) + ((fR x - exact e1) + (fR y - exact e2)))%R by ring.
    eapply Rle_trans; [apply Rabs_triang|]. pose proof (Rabs_triang (fR x - exact e1) (fR y - exact e2)) as T.
    rewrite <- ur_u in E. pose proof (Rmult_le_compat_l ur _ _ ltac:(lra) S). lra.
  - intros P. destruct (peak_l _ _ _ _ _ _ P) as (Pa & Pb & _). apply Fin; [exact P|now apply (w_fin _ _ W1)|now apply (w_fin _ _ W2)].
Qed.

Lemma within_mult e1 e2 x y : within e1 x -> within e2 y -> within (est_mult e1 e2) (fmul x y).
Proof.
  intros W1 W2. pose proof (w_pos _ _ W1) as P1. pose proof (w_pos _ _ W2) as P2. pose proof (w_room _ _ W1) as R1. pose proof (w_room _ _ W2) as R2.
  pose proof (w_mag _ _ W1) as M1. pose proof (w_mag _ _ W2) as M2. pose proof ur_pos as U. assert (T : (0 < tiny)%R) by exact eta_pos.
  pose proof (pow_ge1 (steps e1)) as G1. pose proof (pow_ge1 (steps e2)) as G2.
  set (g1 := ((1 + ur) ^ steps e1)%R) in *. set (g2 := ((1 + ur) ^ steps e2)%R) in *.
  assert (Er : reach (est_mult e1 e2) = ((1 + ur) * (g1 * g2) * (room e1 * room e2 + tiny))%R).
  { unfold reach. cbn [steps room est_mult with_peak]. change ((1 + ur) ^ S (steps e1 + steps e2))%R with ((1 + ur) * (1 + ur) ^ (steps e1 + steps e2))%R. rewrite pow_add. reflexivity. }
  assert (Q1 : reach e1 = (g1 * room e1)%R) by reflexivity. assert (Q2 : reach e2 = (g2 * room e2)%R) by reflexivity.
  assert (GG : (1 <= g1 * g2)%R) by nra. 
  assert (H1 : (0 <= room e1)%R) by lra. assert (H2 : (0 <= room e2)%R) by lra. pose proof (Rmult_le_pos _ _ H1 H2) as HR.
  assert (Hx : forall F1 : fis_finite x = true, (Rabs (fR x) <= g1 * room e1)%R) by (intros; rewrite <- Q1; now apply (w_bound _ _ W1)).
  assert (Hy : forall F2 : fis_finite y = true, (Rabs (fR y) <= g2 * room e2)%R) by (intros; rewrite <- Q2; now apply (w_bound _ _ W2)).
  assert (Hxy : fis_finite x = true -> fis_finite y = true -> (Rabs (fR x * fR y) <= g1 * g2 * (room e1 * room e2))%R).
  { intros F1 F2. rewrite Rabs_mult. replace (g1 * g2 * (room e1 * room e2))%R with ((g1 * room e1) * (g2 * room e2))%R by ring.
    apply Rmult_le_compat; auto using Rabs_pos. }
  split.
  - apply fmul_valid; [apply (w_valid _ _ W1)|apply (w_valid _ _ W2)].
  - cbn. rewrite Rabs_mult. apply Rmult_le_compat; auto using Rabs_pos.
  - cbn. pose proof (Rmult_le_compat _ _ _ _ P1 P2 R1 R2). lra.
  - cbn [peak est_mult with_peak]. apply Rmax_r.
  - intros F. destruct (fmul_finite _ _ F) as [Fx Fy].
    pose proof (mul_error x y (w_valid _ _ W1) (w_valid _ _ W2) Fx Fy F) as E. rewrite <- ur_u, <- tiny_eta in E.
    pose proof (w_err _ _ W1 Fx) as E1. pose proof (w_err _ _ W2 Fy) as E2. specialize (Hxy Fx Fy). specialize (Hx Fx).
    unfold error_bound in *. rewrite Er. rewrite Q1 in E1. rewrite Q2 in E2. cbn [exact magnitude est_mult with_peak].
    (* the exact product of the computed factors *)
    assert (D : (Rabs (fR x * fR y - exact e1 * exact e2) <= g1 * g2 * (room e1 * room e2) - magnitude e1 * magnitude e2)%R).
    { replace (fR x * fR y - exact e1 * exact e2)%R with (fR x * (fR y - exact e2) + (fR x - exact e1) * exact e2)%R by ring.
      eapply Rle_trans; [apply Rabs_triang|]. rewrite !Rabs_mult.
      pose proof (Rmult_le_compat _ _ _ _ (Rabs_pos (fR x)) (Rabs_pos (fR y - exact e2)) Hx E2) as A.
      pose proof (Rmult_le_compat _ _ _ _ (Rabs_pos (fR x - exact e1)) (Rabs_pos (exact e2)) E1 M2) as B. lra. }
    replace (fR (fmul x y) - exact e1 * exact e2)%R with ((fR (fmul x y) - fR x * fR y) + (fR x * fR y - exact e1 * exact e2))%R by ring.
    eapply Rle_trans; [apply Rabs_triang|]. pose proof (Rmult_le_compat_l ur _ _ ltac:(lra) Hxy) as B.
    assert (C : (1 * tiny <= (1 + ur) * (g1 * g2) * tiny)%R) by (apply Rmult_le_compat_r; [lra|nra]). lra.
  - intros P. destruct (peak_l _ _ _ _ _ _ P) as (Pa & Pb & Pc). pose proof (w_fin _ _ W1 Pa) as Fx. pose proof (w_fin _ _ W2 Pb) as Fy.
    eapply nearest_finite; [apply fmul_nearest; try assumption; [apply (w_valid _ _ W1)|apply (w_valid _ _ W2)]|].
    eapply Rle_lt_trans; [now apply Hxy|]. eapply Rle_lt_trans; [|exact Pc].
    assert (Er' : ((1 + ur) ^ S (steps e1 + steps e2) * (room e1 * room e2 + tiny) = (1 + ur) * (g1 * g2) * (room e1 * room e2 + tiny))%R) by exact Er.
    rewrite Er'. assert (A1 : (g1 * g2 * (room e1 * room e2) <= (1 + ur) * (g1 * g2) * (room e1 * room e2))%R) by (apply Rmult_le_compat_r; [lra|nra]).
    assert (A2 : (0 <= (1 + ur) * (g1 * g2) * tiny)%R) by (apply Rmult_le_pos; [nra|lra]). lra.
Qed.

Lemma within_div e x y : within e x -> fvalid y = true -> fis_finite y = true -> (fR y <> 0)%R -> within (est_div e y) (fdiv x y).
Proof.
  intros W Vy Fy Hy. pose proof (w_pos _ _ W) as P1. pose proof (w_room _ _ W) as R1. pose proof (w_mag _ _ W) as M1.
  pose proof ur_pos as U. assert (T : (0 < tiny)%R) by exact eta_pos. pose proof (pow_ge1 (steps e)) as G. set (g := ((1 + ur) ^ steps e)%R) in *.
  set (q := (/ Rabs (fR y))%R). assert (Q : (0 < q)%R) by (apply Rinv_0_lt_compat; now apply Rabs_pos_lt).
  assert (Hd : forall a, (Rabs (a / fR y) = Rabs a * q)%R). { intros a. unfold Rdiv. rewrite Rabs_mult. f_equal. unfold q. apply Rabs_inv. }
  assert (Er : reach (est_div e y) = ((1 + ur) * g * (room e * q + tiny))%R) by reflexivity.
  split.
  - now apply fdiv_valid; [apply (w_valid _ _ W)|].
  - cbn. rewrite Hd. apply Rmult_le_compat_r; [fold q; lra|exact M1].
  - cbn. unfold Rdiv. fold q. assert ((magnitude e * q <= room e * q)%R) by (apply Rmult_le_compat_r; lra). lra.
  - cbn [peak est_div with_peak]. apply Rmax_r.
  - intros F. pose proof (fdiv_finite _ _ Fy F) as Fx. pose proof (div_error x y (w_valid _ _ W) Vy Fx Hy F) as E. rewrite <- ur_u, <- tiny_eta in E.
    pose proof (w_err _ _ W Fx) as E1. pose proof (w_bound _ _ W Fx) as B.
    unfold error_bound in *. rewrite Er. change (reach e) with (g * room e)%R in *. cbn [exact magnitude est_div with_peak]. rewrite Hd in E.
    assert (D : (Rabs (fR x / fR y - exact e / fR y) <= (g * room e - magnitude e) * q)%R).
    { replace (fR x / fR y - exact e / fR y)%R with ((fR x - exact e) / fR y)%R by (field; exact Hy). rewrite Hd. apply Rmult_le_compat_r; lra. }
    replace (fR (fdiv x y) - exact e / fR y)%R with ((fR (fdiv x y) - fR x / fR y) + (fR x / fR y - exact e / fR y))%R by ring.
    eapply Rle_trans; [apply Rabs_triang|]. unfold Rdiv at 4. fold q.
    pose proof (Rmult_le_compat_r q _ _ ltac:(lra) B) as B2. pose proof (Rmult_le_compat_l ur _ _ ltac:(lra) B2) as B3.
    assert (C : (1 * tiny <= (1 + ur) * g * tiny)%R) by (apply Rmult_le_compat_r; [lra|nra]). lra.
  - intros P. destruct (peak_l _ _ _ _ _ _ P) as (Pa & _ & Pc). pose proof (w_fin _ _ W Pa) as Fx.
    eapply nearest_finite; [apply fdiv_nearest; try assumption; apply (w_valid _ _ W)|].
    eapply Rle_lt_trans; [|exact Pc]. rewrite Hd. pose proof (w_bound _ _ W Fx) as B. change (reach e) with (g * room e)%R in B.
    pose proof (Rmult_le_compat_r q _ _ ltac:(lra) B) as B2. change ((1 + ur) ^ S (steps e))%R with ((1 + ur) * g)%R. unfold Rdiv. fold q.
    assert (A0 : (0 <= room e * q)%R) by (apply Rmult_le_pos; lra).
    assert (A1 : (g * (room e * q) <= (1 + ur) * g * (room e * q))%R) by (apply Rmult_le_compat_r; [lra|nra]).
    assert (A2 : (0 <= (1 + ur) * g * tiny)%R) by (apply Rmult_le_pos; [nra|lra]). lra.
Qed.

Section Results.
Variable lm : Libm.
Local Instance NF : Num := F64 lm.
Context {En : Env}.

Lemma number_value (c : Ctx NF) a x : number_in lm c a x -> outcome a c (Ok [@Scalar NF x]) /\ fvalid x = true /\ fis_finite x = true.
Proof.
  intros [x' [V F]|n v x' Hl Hv [V F]]; (split; [|auto]).
  - apply scalar_outcome.
  - pose proof (@c15_variable (EstimateSpec.NF lm) En c n v Hl) as H. rewrite Hv in H. exact H.
Qed.

Lemma measured_value (c : Ctx NF) a e : measured lm c a e -> exists x : f64, outcome a c (Ok [@Scalar NF x]) /\ within e x.
Proof.
  induction 1 as [a x Hx|a b ea eb _ (x & Ha & Wa) _ (y & Hb & Wb)|a b ea eb _ (x & Ha & Wa) _ (y & Hb & Wb)|z b eb _ (y & Hb & Wb)
    |a b ea eb _ (x & Ha & Wa) _ (y & Hb & Wb)|a b ea eb _ (x & Ha & Wa) _ (y & Hb & Wb)|a b ea y _ (x & Ha & Wa) Hy Hn|a z ea _ (x & Ha & Wa)|a z ea _ (x & Ha & Wa)].
  - apply number_value in Hx as (Ho & V & F). exists x. split; [exact Ho|now apply within_double].
  - exists (fadd x y). split; [now apply (scalar_op lm _ a b c x y)|now apply within_add].
  - exists (fadd x (fmul y fm1)). split; [now apply (scalar_op lm _ a b c x y)|]. rewrite fmul_m1 by apply (w_valid _ _ Wb).
    apply within_add; [exact Wa|now apply within_neg].
  - exists (fmul fm1 y). split; [apply (scalar_op lm ONeg (AScalar z) b c z y); [apply scalar_outcome|exact Hb|reflexivity]|].
    rewrite fm1_mul by apply (w_valid _ _ Wb). now apply within_neg.
  - exists (fmul x y). split; [now apply (scalar_op lm _ a b c x y)|now apply within_mult].
  - exists (fmul x y). split; [now apply (scalar_op lm _ a b c x y)|now apply within_mult].
  - apply number_value in Hy as (Hb & V & F). exists (fdiv x y). split; [now apply (scalar_op lm _ a b c x y)|now apply within_div].
  - exists (fabs' x). split; [|now apply within_abs]. apply (scalar_op lm OAbs a (AScalar z) c x z); [exact Ha|apply scalar_outcome|].
    unfold fabs', op_meaning, abs. match goal with |- context [@nltb ?N ?p ?q] => change (@nltb N p q) with (fltb x f0) end. destruct (fltb x f0); reflexivity.
  - exists x. split; [apply (scalar_op lm OParenths a (AScalar z) c x z); [exact Ha|apply scalar_outcome|reflexivity]|exact Wa].
Qed.

(** ** C75 *)
(** Evaluation gives one double.  If it is finite then the error is at most
    [error_bound]; and it is finite if [peak] stays below the largest double. *)
Theorem c75_accuracy (c : Ctx NF) a e : measured lm c a e ->
  exists x : f64, outcome a c (Ok [@Scalar NF x]) /\ fvalid x = true /\
    (fis_finite x = true -> (Rabs (fR x - exact e) <= error_bound e)%R) /\
    ((peak e < overflow_threshold)%R -> fis_finite x = true).
Proof. intros H. destruct (measured_value c a e H) as (x & Ho & W). exists x. split; [exact Ho|]. split; [apply W|]. split; apply W. Qed.

(** The estimate is determined by the expression and the context. *)
Lemma number_unique (c : Ctx NF) a x y : number_in lm c a x -> number_in lm c a y -> x = y.
Proof.
  intros H1 H2. destruct H1 as [x Hx|n v x Hl Hv Hx]; inversion H2 as [y' Hy E|n' v' y' Hl' Hv' Hy' E]; subst; [reflexivity|].
  assert (Ev : v = v') by congruence. subst v'. rewrite Hv in Hv'. assert (G : forall p q : f64, [@Scalar NF p] = [@Scalar NF q] -> p = q).
  { intros p q G. apply (f_equal (fun l : list (Value NF) => match l with [@Scalar _ z] => z | _ => p end)) in G. exact G. }
  now apply G.
Qed.
Theorem c75_estimate_unique (c : Ctx NF) a e e' : measured lm c a e -> measured lm c a e' -> e = e'.
Proof.
  intros H. revert e'. induction H as [a x Hx|a b ea eb Ha IHa Hb IHb|a b ea eb Ha IHa Hb IHb|z b eb Hb IHb|a b ea eb Ha IHa Hb IHb|a b ea eb Ha IHa Hb IHb
    |a b ea y Ha IHa Hy Hn|a z ea Ha IHa|a z ea Ha IHa]; intros e' H'.
  1: { destruct Hx as [x Hx|n v x Hl Hv Hx]; inversion H' as [a' x' Hx'| | | | | | | |]; subst.
    - f_equal. eapply number_unique; [constructor; exact Hx|exact Hx'].
    - f_equal. eapply number_unique; [econstructor; eassumption|exact Hx']. }
  all: inversion H'; subst; try (match goal with HH : number_in _ _ (AOp _ _ _) _ |- _ => inversion HH end); 
    repeat match goal with IH : forall e', measured _ _ ?a e' -> _ = e', HH : measured _ _ ?a _ |- _ => apply IH in HH; subst end; try reflexivity.
  f_equal. eapply number_unique; eassumption.
Qed.

(** ** C76 *)
Lemma lookup_set_num (c : Ctx NF) x (s : f64) n : lookup_var (set_num c x s) n = if str_eqb x n then Some (mkVar x [@Scalar NF s]) else lookup_var c n.
Proof.
  unfold lookup_var, set_num. cbn [add_var vars var_name]. rewrite find_app, (find_filter_neg var_name). cbn [find var_name].
  destruct (str_eqb x n); [reflexivity|]. now destruct (find _ (vars c)).
Qed.
Lemma lookup_set_nums (sv : list str) : forall (c : Ctx NF) (xs : list f64) n,
  (~ In n sv -> lookup_var (set_nums c sv xs) n = lookup_var c n) /\
  (List.length xs = List.length sv -> In n sv -> exists x, In x xs /\ lookup_var (set_nums c sv xs) n = Some (mkVar n [@Scalar NF x])).
Proof.
  induction sv as [|m sv IH]; intros c xs n.
  - split; [intros _; reflexivity|intros _ []].
  - destruct xs as [|x xs]; [split; [reflexivity|discriminate]|].
    change (set_nums c (m :: sv) (x :: xs)) with (set_nums (set_num c m x) sv xs). destruct (IH (set_num c m x) xs n) as [I1 I2]. split.
    + intros Hn. rewrite I1 by (intros G; apply Hn; now right). rewrite lookup_set_num. destruct (str_eqb m n) eqn:E; [|reflexivity].
      apply str_eqb_eq in E. exfalso. apply Hn. now left.
    + cbn [List.length]. intros Hl Hn. destruct (in_dec (list_eq_dec N.eq_dec) n sv) as [Hin|Hni].
      * destruct (I2 ltac:(lia) Hin) as (y & Hy & E). exists y. split; [now right|exact E].
      * destruct Hn as [->|Hn]; [|contradiction]. exists x. split; [now left|]. rewrite I1 by exact Hni. rewrite lookup_set_num.
        now rewrite (proj2 (str_eqb_eq n n) eq_refl).
Qed.
Lemma known_number (c : Ctx NF) sv (xs : list f64) a x : known lm c sv a x -> number_in lm (set_nums c sv xs) a x.
Proof.
  intros [y Hy|n v y Hn Hl Hv Hy]; [now constructor|]. apply (NI_variable lm _ n v y); auto.
  destruct (lookup_set_nums sv c xs n) as [L _]. exact (eq_trans (L Hn) Hl).
Qed.
(** Arithmetic expressions have an estimate at every finite point. *)
Lemma arithmetic_measured (c : Ctx NF) sv (xs : list f64) a : arithmetic lm c sv a -> List.length xs = List.length sv -> Forall double xs ->
  exists e, measured lm (set_nums c sv xs) a e.
Proof.
  intros H Hl Hx. induction H as [n Hn|a x Hk|a b _ (ea & Ha) _ (eb & Hb)|a b _ (ea & Ha) _ (eb & Hb)|z b _ (eb & Hb)|a b _ (ea & Ha) _ (eb & Hb)
    |a b _ (ea & Ha) _ (eb & Hb)|a b y _ (ea & Ha) Hk Hy|a z _ (ea & Ha)|a z _ (ea & Ha)].
  - destruct (lookup_set_nums sv c xs n) as [_ L]. destruct (L Hl Hn) as (x & Hin & E). exists (of_double x). apply M_number.
    apply (NI_variable lm _ n _ x E); [reflexivity|]. rewrite Forall_forall in Hx. now apply Hx.
  - exists (of_double x). apply M_number. now apply known_number.
  - eexists. apply M_add; eassumption.
  - eexists. apply M_sub; eassumption.
  - eexists. apply M_neg; eassumption.
  - eexists. apply M_mult; eassumption.
  - eexists. apply M_hidden; eassumption.
  - eexists. eapply M_div; [exact Ha|apply known_number; exact Hk|exact Hy].
  - eexists. apply M_abs; eassumption.
  - eexists. apply M_brackets; eassumption.
Qed.

(** 10^-PREC as a double. *)
Lemma step_value : (fR (@step_h NF En) <= (1 + / 2 ^ 50) / 10 ^ Z.to_nat PREC)%R.
Proof.
  assert (G : forall m e p, (0 < e)%Z -> (0 <= p)%Z -> (Z.pos m * 10 ^ p * 2 ^ 50 <= (2 ^ 50 + 1) * 2 ^ e)%Z ->
    (fR (S754_finite false m (- e)) <= (1 + / 2 ^ 50) / 10 ^ Z.to_nat p)%R).
  { intros m e p He Hp H. unfold fR. cbn [SF2R cond_Zopp]. unfold F2R. cbn [Fnum Fexp]. rewrite bpow_opp, <- IZR_Zpower by lia.
    change (IZR (radix2 ^ e)) with (IZR (2 ^ e)). apply IZR_le in H. rewrite !mult_IZR, plus_IZR in H.
    assert (E1 : (IZR (10 ^ p) = 10 ^ Z.to_nat p)%R) by (rewrite (pow_IZR 10), Z2Nat.id by exact Hp; reflexivity).
    assert (E2 : (IZR (2 ^ 50) = 2 ^ 50)%R) by (rewrite (pow_IZR 2); reflexivity).
    rewrite E1, E2 in H. assert (P1 : (0 < 10 ^ Z.to_nat p)%R) by (apply pow_lt; lra). assert (P2 : (0 < 2 ^ 50)%R) by (apply pow_lt; lra).
    assert (P3 : (0 < IZR (2 ^ e))%R) by (apply IZR_lt, Z.pow_pos_nonneg; lia).
    apply (Rmult_le_reg_r (10 ^ Z.to_nat p * 2 ^ 50 * IZR (2 ^ e))); [apply Rmult_lt_0_compat; [apply Rmult_lt_0_compat; assumption|exact P3]|].
    replace (IZR (Z.pos m) * / IZR (2 ^ e) * (10 ^ Z.to_nat p * 2 ^ 50 * IZR (2 ^ e)))%R with (IZR (Z.pos m) * 10 ^ Z.to_nat p * 2 ^ 50)%R by (field; lra).
    replace ((1 + / 2 ^ 50) / 10 ^ Z.to_nat p * (10 ^ Z.to_nat p * 2 ^ 50 * IZR (2 ^ e)))%R with ((2 ^ 50 + 1) * IZR (2 ^ e))%R by (field; lra).
    exact H. }
  assert (E13 : exists m e, @pow10 NF (-13) = S754_finite false m (- e) /\ (0 < e)%Z /\ (Z.pos m * 10 ^ 13 * 2 ^ 50 <= (2 ^ 50 + 1) * 2 ^ e)%Z).
  { eexists. exists 96%Z. split; [vm_compute; reflexivity|]. split; [lia|vm_compute; discriminate]. }
  assert (E8 : exists m e, @pow10 NF (-8) = S754_finite false m (- e) /\ (0 < e)%Z /\ (Z.pos m * 10 ^ 8 * 2 ^ 50 <= (2 ^ 50 + 1) * 2 ^ e)%Z).
  { eexists. exists 79%Z. split; [vm_compute; reflexivity|]. split; [lia|vm_compute; discriminate]. }
  unfold step_h, PREC. destruct high_prec.
  - destruct E13 as (m & e & E & He & H). change (- (13))%Z with (-13)%Z. rewrite E. apply G; [exact He|lia|exact H].
  - destruct E8 as (m & e & E & He & H). change (- (8))%Z with (-8)%Z. rewrite E. apply G; [exact He|lia|exact H].
Qed.

Lemma small_residual (s : f64) : fvalid s = true -> fltb (fabs s) (@step_h NF En) = true ->
  fis_finite s = true /\ (Rabs (fR s) < fR (@step_h NF En))%R.
Proof.
  intros V H. destruct (step_h_facts lm) as (S1 & S2 & _).
  assert (F : fis_finite s = true). { destruct s as [|[]| |]; try reflexivity; revert H; destruct (@step_h NF En) as [|[]| |[]]; discriminate. }
  split; [exact F|]. apply fltb_spec in H; [|now apply fabs_valid|exact S1|now destruct s|exact S2].
  replace (Rabs (fR s)) with (fR (fabs s)); [exact H|]. destruct s as [t|t| |t m e]; cbn [fabs SFabs]; unfold fR; cbn [SF2R]; rewrite ?Rabs_R0; try reflexivity.
  rewrite <- F2R_Zabs. f_equal. now destruct t.
Qed.

(** A solution found by [eq], whose coordinates are doubles. *)
Lemma real_equations (eqs : list (AST NF * AST NF)) sv (c : Ctx NF) vs v (xs : list f64) :
  outcome (AEq eqs sv) c (Ok vs) -> In v vs -> (forall l r, In (l, r) eqs -> arithmetic lm c sv l /\ arithmetic lm c sv r) ->
  v = @as_solution NF xs -> List.length xs = List.length sv -> Forall double xs ->
    forall l r, In (l, r) eqs -> exists el er, measured lm (set_nums c sv xs) l el /\ measured lm (set_nums c sv xs) r er /\
      (Rabs (exact el - exact er) <= (1 + / 2 ^ 50) / 10 ^ Z.to_nat PREC + error_bound (est_add el (est_neg er)))%R.
Proof.
  intros H Hv Har E Hl Hd l r Hin.
  destruct (c32_every_equation lm eqs sv c vs v H Hv) as (ys & Ey & Hly & Heq).
  assert (Exy : ys = xs).
  { rewrite E in Ey. destruct xs as [|x [|x' xs]], ys as [|y [|y' ys]]; cbn in Hl, Hly, Ey; try lia; try reflexivity; try discriminate.
    - apply (f_equal (fun v : Value NF => match v with @Scalar _ z => z | _ => x end)) in Ey. cbn in Ey. now rewrite Ey.
    - apply (f_equal (fun v : Value NF => match v with @Vector _ z => z | _ => x :: x' :: xs end)) in Ey. cbn in Ey. now rewrite Ey. }
  subst ys. set (cx := set_nums c sv xs) in *.
  assert (Hm : forall l r, In (l, r) eqs -> exists el er x, measured lm cx l el /\ measured lm cx r er /\
     outcome (AOp OSub l r) cx (Ok [@Scalar NF x]) /\ within (est_add el (est_neg er)) x).
  { intros l' r' Hi. destruct (Har _ _ Hi) as [A1 A2]. destruct (arithmetic_measured c sv xs l' A1 Hl Hd) as [el Hel].
    destruct (arithmetic_measured c sv xs r' A2 Hl Hd) as [er Her].
    destruct (measured_value cx (AOp OSub l' r') _ (M_sub lm cx l' r' el er Hel Her)) as (x & Hx & W). exists el, er, x. auto. }
  assert (Hall : forall e s, In e eqs -> misses_by cx e s -> fvalid s = true).
  { intros [l' r'] s Hi [rest Hs]. destruct (Hm l' r' Hi) as (el & er & x & _ & _ & Ho & W). cbn [fst snd] in Hs.
    pose proof (outcome_unique _ _ _ _ Hs Ho) as U. apply (f_equal (fun r => match r with Ok (@Scalar _ z :: _) => z | _ => s end)) in U. cbn in U. rewrite U. apply W. }
  specialize (Heq Hall (l, r) Hin) as (s & [rest Hs] & Hlt). destruct (Hm l r Hin) as (el & er & x & H1 & H2 & Ho & W). cbn [fst snd] in Hs.
  pose proof (outcome_unique _ _ _ _ Hs Ho) as U. apply (f_equal (fun r => match r with Ok (@Scalar _ z :: _) => z | _ => s end)) in U. cbn in U. subst s.
  exists el, er. split; [exact H1|]. split; [exact H2|]. destruct (small_residual x (w_valid _ _ W) Hlt) as [F B].
  pose proof (w_err _ _ W F) as Er. cbn [exact est_add est_neg with_peak] in Er. pose proof step_value as SV.
  replace (exact el - exact er)%R with (fR x - (fR x - (exact el + - exact er)))%R by ring.
  eapply Rle_trans; [apply Rabs_triang|]. rewrite Rabs_Ropp. lra.
Qed.

Hypothesis Hlm : returns_doubles lm.
(** In a session, every solution of a system of arithmetic equations has finite
    coordinates at which the two sides of every equation, as real numbers, are
    equal up to 10^-PREC and the rounding error of evaluating their
    difference. *)
Theorem c76_real_equations (c : Ctx NF) t (eqs : list (AST NF * AST NF)) sv vs v :
  session lm c -> parse t = Ok (AEq eqs sv) -> names_unknowns lm (AEq eqs sv) ->
  (forall l r, In (l, r) eqs -> arithmetic lm c sv l /\ arithmetic lm c sv r) ->
  outcome (AEq eqs sv) c (Ok vs) -> In v vs ->
  exists xs : list f64, v = @as_solution NF xs /\ List.length xs = List.length sv /\ Forall double xs /\
    forall l r, In (l, r) eqs -> exists el er, measured lm (set_nums c sv xs) l el /\ measured lm (set_nums c sv xs) r er /\
      (Rabs (exact el - exact er) <= (1 + / 2 ^ 50) / 10 ^ Z.to_nat PREC + error_bound (est_add el (est_neg er)))%R.
Proof.
  intros Hs Hp Hne Har H Hv.
  pose proof (c65_results_are_doubles lm Hlm c t _ vs Hs Hp Hne H) as G. rewrite Forall_forall in G. destruct (G v Hv) as [_ Gf].
  destruct (c32_solutions_satisfy lm eqs sv c vs v H Hv) as (xs & E & Hl & _).
  destruct (c34_form lm eqs sv c vs v H Hv) as [F1 F2].
  assert (Hd : Forall double xs).
  { destruct (Nat.eq_dec (List.length sv) 1) as [L1|L1].
    - destruct (F1 L1) as (x & Ex & Fx). destruct xs as [|x' [|x'' xs]]; cbn in Hl; try lia. cbn in E.
      assert (x' = x) by (rewrite E in Ex; apply (f_equal (fun v : Value NF => match v with @Scalar _ z => z | _ => x end)) in Ex; exact Ex). subst x'.
      rewrite E in Gf. repeat constructor; [exact Gf|exact Fx].
    - destruct (F2 L1) as (ys & Ey & _ & Fy). assert (Exy : v = @Vector NF xs) by (rewrite E; destruct xs as [|x' [|x'' xs]]; [reflexivity|cbn in Hl; lia|reflexivity]).
      assert (ys = xs) by (rewrite Exy in Ey; apply (f_equal (fun v : Value NF => match v with @Vector _ z => z | _ => ys end)) in Ey; now symmetry). subst ys.
      rewrite Exy in Gf. cbn in Gf. rewrite Forall_forall in *. intros x Hx. split; [now apply Gf|now apply Fy]. }
  exists xs. split; [exact E|]. split; [exact Hl|]. split; [exact Hd|]. exact (real_equations eqs sv c vs v xs H Hv Har E Hl Hd).
Qed.

(** For one linear equation [a*x=b]: the distance of an answer to the real
    solution [b/a]. *)
Theorem c76_linear_equation (c : Ctx NF) t (a b : f64) n vs v :
  session lm c -> parse t = Ok (AEq [(AOp OMult (AScalar (a : @T NF)) (AVar n), AScalar (b : @T NF))] [n]) ->
  double a -> double b -> fR a <> 0%R ->
  outcome (AEq [(AOp OMult (AScalar (a : @T NF)) (AVar n), AScalar (b : @T NF))] [n]) c (Ok vs) -> In v vs ->
  exists x : f64, v = @Scalar NF x /\ double x /\
   (Rabs (fR x - fR b / fR a) <=
     ((1 + / 2 ^ 50) / 10 ^ Z.to_nat PREC
      + ((1 + ur) ^ 2 * (Rabs (fR a) * Rabs (fR x) + tiny + Rabs (fR b)) - (Rabs (fR a) * Rabs (fR x) + Rabs (fR b)))) / Rabs (fR a))%R.
Proof.
  intros Hs Hp Da Db Ha H Hv.
  destruct (c76_real_equations c t _ [n] vs v Hs Hp) as (xs & E & Hl & Hd & Heq); [| |exact H|exact Hv|].
  - intros eqs sv Hn. inversion Hn as [|x ? Hx H1]; subst; [discriminate|]. exfalso.
    cbn in Hx. destruct Hx as [<-|[<-|[]]]; inversion H1 as [|y ? Hy H2]; subst; [|destruct Hy].
    destruct Hy as [<-|[<-|[]]]; inversion H2 as [|z ? Hz H3]; subst; destruct Hz.
  - intros l r [Hin|[]]. injection Hin as <- <-. split; [apply A_mult|].
    + eapply A_known. now constructor.
    + apply A_unknown. now left.
    + eapply A_known. now constructor.
  - destruct xs as [|x [|x' xs]]; cbn in Hl; try lia. exists x. split; [exact E|]. inversion Hd as [|? ? Dx _]; subst. split; [exact Dx|].
    destruct (Heq _ _ (or_introl eq_refl)) as (el & er & Ml & Mr & B).
    assert (El : el = est_mult (of_double a) (of_double x)).
    { eapply c75_estimate_unique; [exact Ml|]. apply M_mult; apply M_number; [now constructor|].
      apply (NI_variable lm _ n (mkVar n [@Scalar NF x]) x); [|reflexivity|exact Dx].
      change (set_nums c [n] [x]) with (set_num c n x). exact (eq_trans (lookup_set_num c n x n) (f_equal (fun b : bool => if b then _ else _) (proj2 (str_eqb_eq n n) eq_refl))). }
    assert (Er : er = of_double b). { eapply c75_estimate_unique; [exact Mr|]. apply M_number. now constructor. }
    subst el er. cbn [exact est_mult of_double with_peak] in B. unfold error_bound, reach in B.
    cbn [est_add est_neg est_mult of_double with_peak steps room magnitude] in B. change (S (Nat.max 1 0)) with 2 in B.
    assert (P : (0 < Rabs (fR a))%R) by now apply Rabs_pos_lt.
    apply (Rmult_le_reg_r (Rabs (fR a))); [exact P|]. rewrite <- Rabs_mult.
    replace ((fR x - fR b / fR a) * fR a)%R with (fR a * fR x - fR b)%R by (field; exact Ha).
    assert (Ed : forall p, (p / Rabs (fR a) * Rabs (fR a) = p)%R) by (intros p; field; lra). rewrite Ed. exact B.
Qed.
End Results.

Module Examples.
Local Existing Instance NT.
Local Existing Instance ET.
Import PropSolve.Examples.
(** The system x+1000=0, x+1000=0, y+1000=0 of [PropSolve]. *)
Example toy_doubles : returns_doubles toy.
Proof.
  constructor; auto. intros x y Hx Hy. change (lm_powf toy x y) with (@npowi (F64 stub) x (f_to_i32 y)).
  apply (Closure.qpowi (N := F64 stub) (fun z : f64 => fvalid z = true)); [|exact Hx]. apply doubles_closed. constructor; auto.
Qed.
Example text : @parse NT ET (lit "eq(x+1000=0,x+1000=0,y+1000=0,x,y)") = Ok (AEq system [X; Y]).
Proof. reflexivity. Qed.
Example unknowns : names_unknowns toy (AEq system [X; Y]).
Proof.
  intros eqs sv Hn. inversion Hn as [|x ? Hx H1]; subst; [discriminate|]. exfalso. clear Hn.
  repeat match goal with
  | H : _ \/ _ |- _ => destruct H as [<-|H]
  | H : False |- _ => destruct H
  | H : In _ (ParserSpec.children _) |- _ => cbn in H
  | H : ParserSpec.node _ _ |- _ => inversion H; clear H; subst
  end.
Qed.
Example is_arithmetic l r : In (l, r) system -> arithmetic toy ctx0 [X; Y] l /\ arithmetic toy ctx0 [X; Y] r.
Proof.
  assert (K : forall z, double (num z) -> arithmetic toy ctx0 [X; Y] (k z)) by (intros z Hz; eapply A_known; now constructor).
  intros H. cbn in H. destruct H as [H|[H|[H|[]]]]; injection H as <- <-; (split; [apply A_add; [apply A_unknown; cbn; tauto|]|]);
    apply K; split; reflexivity.
Qed.
Example solution : exists xs : list f64, ve [-1000; -1000]%Z = @as_solution NT xs /\ List.length xs = 2 /\ Forall double xs /\
    forall l r, In (l, r) system -> exists el er, measured toy (set_nums ctx0 [X; Y] xs) l el /\ measured toy (set_nums ctx0 [X; Y] xs) r er /\
      (Rabs (exact el - exact er) <= (1 + / 2 ^ 50) / 10 ^ Z.to_nat PREC + error_bound (est_add el (est_neg er)))%R.
Proof.
  apply (c76_real_equations toy toy_doubles ctx0 (lit "eq(x+1000=0,x+1000=0,y+1000=0,x,y)") system [X; Y] _ _ (Start_empty toy) text unknowns is_arithmetic solved).
  now left.
Qed.
(** [x*x-2] at x = 1000: the bound is finite and the result is 999998. *)
Example square : measured toy (mkCtx [mkVar X [sc 1000]] []) (AOp OSub (AOp OMult (AVar X) (AVar X)) (k 2))
  (est_add (est_mult (of_double (num 1000)) (of_double (num 1000))) (est_neg (of_double (num 2)))).
Proof.
  assert (Hx : number_in toy (mkCtx [mkVar X [sc 1000]] []) (AVar X) (num 1000)).
  { eapply NI_variable; [reflexivity|reflexivity|split; reflexivity]. }
  apply M_sub; [apply M_mult; now apply M_number|]. apply M_number. constructor. split; reflexivity.
Qed.
End Examples.
