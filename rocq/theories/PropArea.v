(** * PropArea: C78 - integrals of polynomial expressions in binary64. *)
From Coq Require Import List NArith ZArith Bool String Arith Lia SpecFloat Reals Lra.
From Flocq Require Import Core IEEE754.BinarySingleNaN Relative.
From Verif Require Import Base BaseFacts F64 Num Types Maths Eval EvalFuel SpecEval EvalProofs PropEval CalcSpec SolveSpec SolveProofs
  FloatFacts DecimalFloat PropNumber PropSolve SolveFloat PropRounding PropFloat PropCalc Parser GrammarSpec ShapeSpec PropResults
  EstimateSpec SlopeSpec AreaSpec PropEstimate PropSlope Toy.
Import ListNotations.
Local Open Scope list_scope.

(** Sums of numbers. *)
Fixpoint total_of {A} (f : A -> R) (l : list A) : R := match l with [] => 0%R | a :: l => (f a + total_of f l)%R end.

Lemma total_exact es : forall e, exact (est_total e es) = (exact e + total_of exact es)%R.
Proof.
  induction es as [|e' es IH]; intros e; cbn [total_of]; [unfold est_total; cbn; lra|].
  change (est_total e (e' :: es)) with (est_total (est_add e e') es). rewrite IH. cbn [exact est_add with_peak]. lra.
Qed.
Lemma within_total es : forall e s ss, within e s -> Forall2 within es ss -> within (est_total e es) (fold_left fadd ss s).
Proof.
  induction es as [|e' es IH]; intros e s ss W H; inversion H as [|? s' ? ss' W' H']; subst; [exact W|].
  change (est_total e (e' :: es)) with (est_total (est_add e e') es). cbn [fold_left]. apply IH; [now apply within_add|exact H'].
Qed.

Section Results.
Variable lm : Libm.
Local Instance NF : Num := F64 lm.
Context {En : Env}.

Section Strips.
(** The ends [a], [b] and the width [dx] of the strips. *)
Variables (a b dx : f64) (P : R).
Hypotheses (Da : double a) (Db : double b) (Dd : double dx).
Local Notation slip := (AreaSpec.slip dx P).
Local Notation blur := (AreaSpec.blur dx P).
Hypotheses (Ha : (- P <= fR a)%R) (Hb : (fR b <= P)%R) (Hslip : (slip < fR dx)%R) (Hover : (3 * (P + fR dx + 1) < overflow_threshold)%R).

Lemma ur_small : (ur <= / 100)%R.
Proof.
  unfold unit_roundoff. apply Rinv_le_contravar; [lra|]. replace 100%R with (INR 100) by (cbn; lra). 
  rewrite (pow_IZR 2). rewrite INR_IZR_INZ. apply IZR_le. vm_compute. discriminate.
Qed.
Lemma tiny_small : (tiny <= 1)%R.
Proof. unfold tiny. apply (Rle_trans _ (/ 1)); [|rewrite Rinv_1; lra]. apply Rinv_le_contravar; [lra|]. apply pow_R1_Rle. lra. Qed.
Lemma cube : ((1 + ur) ^ 3 <= 11 / 10 /\ (1 + ur) ^ 2 <= 11 / 10 /\ 1 + ur <= 11 / 10)%R.
Proof. pose proof ur_small. pose proof ur_pos. repeat split; nra. Qed.

Lemma P_pos p : (- P <= fR p)%R -> (fR p < fR b)%R -> (Rabs (fR p) <= P /\ 0 <= P)%R.
Proof. intros H1 H2. split; [apply Rabs_le; lra|lra]. Qed.
Lemma slip_pos : (0 <= P)%R -> (0 < fR dx)%R.
Proof. intros HP. pose proof ur_pos. unfold AreaSpec.slip in Hslip. pose proof ur_small. nra. Qed.

Lemma next_point p : double p -> (- P <= fR p)%R -> (fR p < fR b)%R ->
  double (fadd p dx) /\ (Rabs (fR (fadd p dx) - (fR p + fR dx)) <= slip)%R.
Proof.
  intros Dp L U. destruct (P_pos p L U) as [AP PP]. pose proof (slip_pos PP) as Hd.
  assert (B : (Rabs (fR p + fR dx) <= P + fR dx)%R).
  { eapply Rle_trans; [apply Rabs_triang|]. rewrite (Rabs_pos_eq (fR dx)) by lra. lra. }
  assert (F : fis_finite (fadd p dx) = true).
  { eapply nearest_finite; [apply fadd_nearest; try apply Dp; apply Dd|]. lra. }
  split; [split; [apply fadd_valid; [apply Dp|apply Dd]|exact F]|].
  eapply Rle_trans; [apply add_error; try apply Dp; try apply Dd; exact F|]. unfold AreaSpec.slip. rewrite ur_u. apply Rmult_le_compat_l; [|exact B]. pose proof u_pos. lra.
Qed.

Definition two : f64 := @nof_Z NF 2.
Lemma two_value : fR two = 2%R /\ double two.
Proof.
  split; [|split; reflexivity]. unfold two. replace (@nof_Z NF 2) with (S754_finite false 4503599627370496 (-51)) by (vm_compute; reflexivity).
  unfold fR, SF2R, F2R. cbn. lra.
Qed.
Lemma sample_point p : double p -> (- P <= fR p)%R -> (fR p < fR b)%R ->
  double (@sample NF dx p) /\ (Rabs (fR (@sample NF dx p) - (fR p - fR dx / 2)) <= blur)%R.
Proof.
  intros Dp L U. destruct (P_pos p L U) as [AP PP]. pose proof (slip_pos PP) as Hd. destruct two_value as [T2 D2].
  assert (W : within (est_div (est_add (of_double p) (est_add (of_double p) (est_neg (of_double dx)))) two) (@sample NF dx p)).
  { assert (E : @sample NF dx p = fdiv (fadd p (fadd p (fopp dx))) two) by (unfold sample; change (@nsub NF) with fsub; rewrite fsub_fadd_opp; reflexivity).
    rewrite E. apply within_div; [|apply D2|apply D2|rewrite T2; lra]. apply within_add; [apply within_double; apply Dp|].
    apply within_add; [apply within_double; apply Dp|]. apply within_neg, within_double; apply Dd. }
  pose proof cube as (C3 & C2 & C1). pose proof ur_pos as UP. pose proof tiny_small as TS. assert (T0 : (0 < tiny)%R) by exact eta_pos.
  assert (A2 : (Rabs 2 = 2)%R) by (apply Rabs_pos_eq; lra). assert (AD : (Rabs (fR dx) = fR dx)%R) by (apply Rabs_pos_eq; lra). pose proof (Rabs_pos (fR p)) as A0.
  assert (F : fis_finite (@sample NF dx p) = true).
  { apply (w_fin _ _ W). cbn [peak est_div est_add est_neg of_double with_peak room magnitude steps]. rewrite T2, A2, AD. cbn [Nat.max].
    change ((1 + ur) ^ 1)%R with ((1 + ur) * 1)%R.
    assert (Q1 : ((1 + ur) * 1 * (Rabs (fR p) + fR dx) <= 11 / 10 * (P + fR dx))%R) by (apply Rmult_le_compat; lra).
    assert (Q2 : ((1 + ur) ^ 2 * (Rabs (fR p) + (Rabs (fR p) + fR dx)) <= 11 / 10 * (P + (P + fR dx)))%R) by (apply Rmult_le_compat; try lra; apply pow_le; lra).
    assert (Q3 : ((1 + ur) ^ 3 * ((Rabs (fR p) + (Rabs (fR p) + fR dx)) / 2 + tiny) <= 11 / 10 * ((P + (P + fR dx)) / 2 + 1))%R) by (apply Rmult_le_compat; try lra; apply pow_le; lra).
    repeat apply Rmax_lub_lt; lra. }
  split; [split; [apply W|exact F]|].
  pose proof (w_err _ _ W F) as E. unfold error_bound, reach in E. cbn [exact est_div est_add est_neg of_double with_peak room magnitude steps Nat.max] in E. rewrite T2, A2, AD in E.
  replace ((fR p + (fR p + - fR dx)) / 2)%R with (fR p - fR dx / 2)%R in E by field. eapply Rle_trans; [exact E|]. unfold AreaSpec.blur.
  replace ((Rabs (fR p) + (Rabs (fR p) + fR dx)) / 2)%R with (Rabs (fR p) + fR dx / 2)%R by field.
  assert (G : (1 <= (1 + ur) ^ 3)%R) by (apply pow_R1_Rle; lra). nra.
Qed.

(** A real function [F] with size at most [V] and slope at most [S] on
    [-X, X], and an antiderivative [G]. *)
Variables (F G : R -> R) (V S : R).
Let X : R := (P + fR dx + slip + blur)%R.
Hypothesis (HV : forall t, (Rabs t <= X)%R -> (Rabs (F t) <= V)%R).
Hypothesis (HS : forall s t, (Rabs s <= X)%R -> (Rabs t <= X)%R -> (Rabs (F t - F s) <= S * Rabs (t - s))%R).
Hypothesis (HG : forall t, derivable_pt_lim G t (F t)).
Hypothesis (HS0 : (0 <= S)%R).

Local Notation strip_error := (AreaSpec.strip_error dx P V S).

Lemma blur_pos : (0 <= P)%R -> (0 <= blur)%R.
Proof.
  intros HP. pose proof (slip_pos HP). assert (T0 : (0 < tiny)%R) by exact eta_pos. pose proof ur_pos.
  assert (G1 : (1 <= (1 + ur) ^ 3)%R) by (apply pow_R1_Rle; lra). unfold AreaSpec.blur. nra.
Qed.
Lemma slip_nonneg : (0 <= P)%R -> (0 <= slip)%R.
Proof. intros HP. pose proof (slip_pos HP). pose proof ur_pos. unfold AreaSpec.slip. apply Rmult_le_pos; lra. Qed.
Lemma mean (u v : R) : (u < v)%R -> exists w, (u <= w <= v /\ G v - G u = F w * (v - u))%R.
Proof. intros H. destruct (MVT_cor2 G F u v H ltac:(intros; apply HG)) as (w & E & Hw). exists w. split; [lra|exact E]. Qed.

Lemma one_strip p : double p -> (- P <= fR p)%R -> (fR p < fR b)%R ->
  (Rabs (F (fR (@sample NF dx p)) * fR dx - (G (fR (fadd p dx)) - G (fR p))) <= strip_error)%R.
Proof.
  intros Dp L U. destruct (P_pos p L U) as [AP PP]. pose proof (slip_pos PP) as Hd. pose proof (slip_nonneg PP) as S0. pose proof (blur_pos PP) as B0.
  destruct (next_point p Dp L U) as [_ N]. destruct (sample_point p Dp L U) as [_ M].
  set (m := fR (@sample NF dx p)) in *. set (q := fR (fadd p dx)) in *. apply Rabs_le_inv in N. apply Rabs_le_inv in M. apply Rabs_le_inv in AP.
  assert (Hpq : (fR p < q)%R) by lra. destruct (mean (fR p) q Hpq) as (w & Hw & E). rewrite E.
  assert (Xm : (Rabs m <= X)%R) by (unfold X; apply Rabs_le; lra).
  assert (Xw : (Rabs w <= X)%R) by (unfold X; apply Rabs_le; lra).
  replace (F m * fR dx - F w * (q - fR p))%R with (F m * (fR dx - (q - fR p)) - (F w - F m) * (q - fR p))%R by ring.
  eapply Rle_trans; [apply Rabs_triang|]. rewrite Rabs_Ropp, !Rabs_mult. unfold AreaSpec.strip_error. apply Rplus_le_compat.
  - apply Rmult_le_compat; auto using Rabs_pos. apply Rabs_le. lra.
  - apply Rmult_le_compat; auto using Rabs_pos.
    + eapply Rle_trans; [apply HS; assumption|]. apply Rmult_le_compat_l; [exact HS0|]. apply Rabs_le. lra.
    + apply Rabs_le. lra.
Qed.

Lemma strips p ps : @visits NF dx b p ps -> double p -> (- P <= fR p)%R ->
  exists q : f64, double q /\ (fR b <= fR q)%R /\ (fR q <= Rmax (fR p) (fR b + fR dx + slip))%R /\
    (INR (List.length ps) * (fR dx - slip) <= fR q - fR p)%R /\ Forall double (map (@sample NF dx) ps) /\
    (Rabs (total_of (fun m => F (fR m)) (map (@sample NF dx) ps) * fR dx - (G (fR q) - G (fR p))) <= INR (List.length ps) * strip_error)%R.
Proof.
  induction 1 as [p Hlt|p ps Hlt Hv IH]; intros Dp L.
  - exists p. split; [exact Dp|]. split.
    { apply Rnot_lt_le. intros H. apply (fltb_spec p b (proj1 Dp) (proj1 Db) (proj2 Dp) (proj2 Db)) in H. change (fltb p b = false) in Hlt. congruence. }
    split; [apply Rmax_l|]. split; [cbn; lra|]. split; [constructor|]. cbn [List.length map total_of INR].
    replace (0 * fR dx - (G (fR p) - G (fR p)))%R with 0%R by ring. rewrite Rabs_R0. lra.
  - assert (U : (fR p < fR b)%R) by (apply (fltb_spec p b (proj1 Dp) (proj1 Db) (proj2 Dp) (proj2 Db)); exact Hlt).
    destruct (P_pos p L U) as [AP PP]. pose proof (slip_pos PP) as Hd. pose proof (slip_nonneg PP) as S0.
    destruct (next_point p Dp L U) as [Dn N]. destruct (sample_point p Dp L U) as [Dm _]. pose proof (one_strip p Dp L U) as E. apply Rabs_le_inv in N.
    change (@nadd NF p dx) with (fadd p dx) in IH.
    destruct (IH Dn ltac:(lra)) as (q & Dq & Q1 & Q2 & Q3 & Q4 & Q5). exists q. split; [exact Dq|]. split; [exact Q1|]. split.
    { eapply Rle_trans; [exact Q2|]. apply Rmax_lub; [|apply Rmax_r]. eapply Rle_trans; [|apply Rmax_r]. lra. }
    cbn [List.length map total_of]. rewrite S_INR. split; [lra|]. split; [now constructor|].
    set (T := total_of (fun m => F (fR m)) (map (@sample NF dx) ps)) in *. set (m := @sample NF dx p) in *.
    replace ((F (fR m) + T) * fR dx - (G (fR q) - G (fR p)))%R
      with ((F (fR m) * fR dx - (G (fR (fadd p dx)) - G (fR p))) + (T * fR dx - (G (fR q) - G (fR (fadd p dx)))))%R by ring.
    eapply Rle_trans; [apply Rabs_triang|]. lra.
Qed.

(** The real sum of the samples against the real integral. *)
Lemma area ps : @visits NF dx b a ps -> (fR a < fR b)%R -> 
  Forall double (map (@sample NF dx) ps) /\ (INR (List.length ps) * (fR dx - slip) <= fR b - fR a + fR dx + slip)%R /\
  (Rabs (total_of (fun m => F (fR m)) (map (@sample NF dx) ps) * fR dx - (G (fR b) - G (fR a))) <= INR (List.length ps) * strip_error + V * (fR dx + slip))%R.
Proof.
  intros Hv Hab. destruct (strips a ps Hv Da Ha) as (q & Dq & Q1 & Q2 & Q3 & Q4 & Q5). split; [exact Q4|].
  destruct (P_pos a Ha Hab) as [AP PP]. pose proof (slip_pos PP) as Hd. pose proof (slip_nonneg PP) as S0. pose proof (blur_pos PP) as B0.
  assert (Q : (fR q <= fR b + fR dx + slip)%R) by (eapply Rle_trans; [exact Q2|]; apply Rmax_lub; lra). split; [lra|].
  assert (E : (Rabs (G (fR q) - G (fR b)) <= V * (fR dx + slip))%R).
  { assert (V0 : (0 <= V)%R). { pose proof (HV (fR a) ltac:(unfold X; lra)). pose proof (Rabs_pos (F (fR a))). lra. }
    destruct (Rle_lt_or_eq_dec _ _ Q1) as [Lt|Eq].
    - destruct (mean _ _ Lt) as (w & Hw & Ew). rewrite Ew, Rabs_mult. apply Rmult_le_compat; auto using Rabs_pos.
      + apply HV. unfold X. apply Rabs_le. pose proof Hb. pose proof Ha. lra.
      + apply Rabs_le. lra.
    - rewrite Eq, Rminus_diag_eq, Rabs_R0 by reflexivity. apply Rmult_le_pos; lra. }
  set (T := (total_of (fun m => F (fR m)) (map (@sample NF dx) ps) * fR dx)%R) in *.
  replace (T - (G (fR b) - G (fR a)))%R with ((T - (G (fR q) - G (fR a))) + (G (fR q) - G (fR b)))%R by ring.
  eapply Rle_trans; [apply Rabs_triang|]. lra.
Qed.

(** No step is lost. *)
Lemma steps_count : (fR a < fR b)%R -> forall q, @leads NF dx b a q -> fltb q b = true -> feqb (fadd q dx) q = false.
Proof.
  intros Hab q Hl Hq.
  assert (G0 : forall p, @leads NF dx b p q -> double p -> (- P <= fR p)%R -> double q /\ (- P <= fR q)%R).
  { clear Hl. intros p Hl. induction Hl as [p|p q Hlt Hl IH]; intros Dp L; [split; assumption|].
    assert (U : (fR p < fR b)%R) by (apply (fltb_spec p b (proj1 Dp) (proj1 Db) (proj2 Dp) (proj2 Db)); exact Hlt).
    destruct (next_point p Dp L U) as [Dn N]. apply Rabs_le_inv in N. apply (IH Hq); [exact Dn|]. 
    destruct (P_pos p L U) as [_ PP]. change (@nadd NF p dx) with (fadd p dx). lra. }
  destruct (G0 a Hl Da Ha) as [Dq L].
  assert (U : (fR q < fR b)%R) by (apply (fltb_spec q b (proj1 Dq) (proj1 Db) (proj2 Dq) (proj2 Db)); exact Hq).
  destruct (next_point q Dq L U) as [Dn N]. apply Rabs_le_inv in N.
  assert (Lt : fltb q (fadd q dx) = true) by (apply fltb_spec; try apply Dq; try apply Dn; lra).
  rewrite feqb_sym. unfold fltb, SFltb in Lt. unfold feqb, SFeqb. destruct (SFcompare q (fadd q dx)) as [[]|]; congruence.
Qed.
End Strips.

(** ** C78 *)
Theorem c78_integral (c : Ctx NF) (e la lb : AST NF) x (a b : f64) (G : R -> R) :
  distinct_names c -> polynomial lm c x e ->
  outcome la c (Ok [@Scalar NF a]) -> outcome lb c (Ok [@Scalar NF b]) -> double a -> double b -> (fR a < fR b)%R ->
  let dx := @width NF En a b in
  let P := Rmax (Rabs (fR a)) (Rabs (fR b)) in
  double dx -> (slip dx P < fR dx)%R -> (3 * (P + fR dx + 1) < overflow_threshold)%R ->
  (forall t, derivable_pt_lim G t (graph lm c x e t)) ->
  let X := (P + fR dx + slip dx P + blur dx P)%R in
  let B := bend_of lm (valuation lm c) x X e in
  exists (m0 : f64) (ms : list f64) (e0 : estimate) (es : list estimate) (r : f64),
    let n := INR (S (List.length ms)) in
    Forall double (m0 :: ms) /\ Forall2 (fun m => measured lm (set_num c x m) e) (m0 :: ms) (e0 :: es) /\
    (n * (fR dx - slip dx P) <= fR b - fR a + fR dx + slip dx P)%R /\
    outcome (AInt e x la lb) c (Ok [@Scalar NF r]) /\ outcome (AInt e x lb la) c (Ok [@Scalar NF r]) /\ fvalid r = true /\
    (fis_finite r = true ->
      Rabs (fR r - (G (fR b) - G (fR a))) <= error_bound (est_mult (est_total e0 es) (of_double dx))
        + n * strip_error dx P (size B) (steep B) + size B * (fR dx + slip dx P))%R.
Proof.
  intros Hc Hp Ola Olb Da Db Hab dx P Dd Hslip Hover HG X B.
  assert (Ha : (- P <= fR a)%R). { unfold P. pose proof (Rmax_l (Rabs (fR a)) (Rabs (fR b))). pose proof (Rle_abs (- fR a)) as Q. rewrite Rabs_Ropp in Q. lra. }
  assert (Hb : (fR b <= P)%R). { unfold P. pose proof (Rmax_r (Rabs (fR a)) (Rabs (fR b))). pose proof (Rle_abs (fR b)). lra. }
  assert (PP : (0 <= P)%R) by lra.
  assert (Lab : fltb a b = true) by (apply fltb_spec; try apply Da; try apply Db; exact Hab).
  destruct (width_not_negative lm a b (proj1 Da) (proj1 Db) Lab) as [_ Nw].
  destruct (steps_are_finite lm dx b (proj1 Dd) (proj1 Db) Nw (S (Z.to_nat (fkey b - fkey a))) a (proj1 Da) ltac:(lia)
    (steps_count a b dx P Da Db Dd Ha Hb Hslip Hover Hab)) as [ps Hv].
  assert (X0 : (Rabs (fR a) <= X)%R).
  { unfold X. pose proof (Rmax_l (Rabs (fR a)) (Rabs (fR b))) as Q. fold P in Q. pose proof (slip_pos dx P Hslip PP).
    pose proof (slip_nonneg dx P Hslip PP). pose proof (blur_pos dx P Hslip PP). lra. }
  assert (HV : forall t, (Rabs t <= X)%R -> (Rabs (graph lm c x e t) <= size B)%R).
  { intros t Ht. destruct (polynomial_bends lm c x e t Hp) as (g & Bd). exact (b_size _ _ _ _ _ (Bd X Ht) t Ht). }
  assert (HS : forall s t, (Rabs s <= X)%R -> (Rabs t <= X)%R -> (Rabs (graph lm c x e t - graph lm c x e s) <= steep B * Rabs (t - s))%R).
  { intros s t Hs Ht. destruct (polynomial_bends lm c x e s Hp) as (g & Bd). exact (b_steep _ _ _ _ _ (Bd X Hs) t Ht). }
  assert (HS0 : (0 <= steep B)%R).
  { destruct (polynomial_bends lm c x e (fR a) Hp) as (g & Bd). exact (b_steep0 _ _ _ _ _ (Bd X X0)). }
  destruct (area a b dx P Da Db Dd Ha Hb Hslip Hover (graph lm c x e) G (size B) (steep B) HV HS HG HS0 ps Hv Hab) as (Dm & Hn & Er).
  (* the samples *)
  inversion Hv as [p Hlt|p ps' Hlt Hv']; subst; [change (fltb a b = false) in Hlt; congruence|]. cbn [map] in Dm, Er. cbn [List.length] in Hn, Er.
  set (m0 := @sample NF dx a) in *. set (ms := map (@sample NF dx) ps') in *.
  assert (Hm : forall m, double m -> exists em (y : f64), measured lm (set_num c x m) e em /\ outcome e (set_num c x m) (Ok [@Scalar NF y]) /\ within em y).
  { intros m Hd. destruct (arithmetic_measured lm c [x] [m] e (polynomial_arithmetic lm c x e Hp) eq_refl) as (em & M); [now constructor|].
    change (set_nums c [x] [m]) with (set_num c x m) in M. destruct (measured_value lm (set_num c x m) e em M) as (y & Oy & W). exists em, y. auto. }
  assert (Hms : forall l, Forall double l -> exists es ys, Forall2 (fun m => measured lm (set_num c x m) e) l es /\
     Forall2 (fun m (y : f64) => outcome e (set_num c x m) (Ok [@Scalar NF y])) l ys /\ Forall2 within es ys).
  { induction l as [|m l IH]; intros Hd; [exists [], []; repeat split; constructor|]. inversion Hd as [|? ? H1 H2]; subst.
    destruct (IH H2) as (es & ys & I1 & I2 & I3). destruct (Hm m H1) as (em & y & M & Oy & W). exists (em :: es), (y :: ys). repeat split; now constructor. }
  inversion Dm as [|? ? D0 Dms]; subst. destruct (Hm m0 D0) as (e0 & y0 & M0 & O0 & W0). destruct (Hms ms Dms) as (es & ys & Ms & Os & Ws).
  set (r := fmul (fold_left fadd ys y0) dx).
  assert (W : within (est_mult (est_total e0 es) (of_double dx)) r) by (apply within_mult; [now apply within_total|apply within_double; apply Dd]).
  assert (Oi : outcome (AInt e x la lb) c (Ok [@Scalar NF r])).
  { refine (c29_sum_of_samples e la lb x a b c (a :: ps') y0 ys Hc Ola Olb _ _ Hv _).
    - change (feqb a b = false). unfold fltb, SFltb in Lab. unfold feqb, SFeqb. destruct (SFcompare a b) as [[]|]; congruence.
    - now apply fltb_asym.
    - constructor; [exact O0|]. unfold ms in Os. clear -Os. revert ys Os. fold dx. induction ps' as [|p ps IH]; intros ys Os; inversion Os; subst; constructor; auto. }
  exists m0, ms, e0, es, r. cbv zeta. split; [exact Dm|]. split; [now constructor|].
  assert (El : @List.length f64 ms = List.length ps') by apply map_length. rewrite El.
  split; [exact Hn|]. split; [exact Oi|]. split; [apply (c28_swapped_bounds lm e la lb x a b c); assumption|]. split; [apply W|].
  intros Fr. pose proof (w_err _ _ W Fr) as E1. cbn [exact est_mult of_double with_peak] in E1. rewrite total_exact in E1.
  assert (Eg : forall m em, measured lm (set_num c x m) e em -> exact em = graph lm c x e (fR m)).
  { intros m em M. rewrite (c75_exact lm _ _ _ M). unfold graph. apply over_reals_ext, valuation_set. }
  assert (Es : total_of exact es = total_of (fun m => graph lm c x e (fR m)) ms).
  { clear -Ms Eg. induction Ms as [|m em l l' M _ IH]; [reflexivity|]. cbn [total_of]. now rewrite IH, (Eg m em M). }
  rewrite (Eg m0 e0 M0), Es in E1. cbn [total_of] in Er. 
  set (T := ((graph lm c x e (fR m0) + total_of (fun m => graph lm c x e (fR m)) ms) * fR dx)%R) in *.
  replace (fR r - (G (fR b) - G (fR a)))%R with ((fR r - T) + (T - (G (fR b) - G (fR a))))%R by ring.
  eapply Rle_trans; [apply Rabs_triang|]. rewrite Rplus_assoc. exact (Rplus_le_compat _ _ _ _ E1 Er).
Qed.
End Results.

Module Examples.
Local Existing Instance NT.
Local Existing Instance ET.
Import PropSlope.Examples.
(** I(x*x, x, 0, 1), with the antiderivative t^3/3. *)
Example square_text : parse (lit "I(x*x,x,0,1)") = Ok (AInt square X (AScalar (num 0)) (AScalar (num 1))). Proof. reflexivity. Qed.
Lemma zero_value : fR (num 0) = 0%R. Proof. reflexivity. Qed.
Lemma one_value : fR (num 1) = 1%R.
Proof. replace (num 1) with (S754_finite false 4503599627370496 (-52)) by (vm_compute; reflexivity). unfold fR, SF2R, F2R. cbn. lra. Qed.
Lemma dx_value : (/ 1000000 < fR (@width NT ET (num 0) (num 1)) < 1)%R.
Proof.
  replace (@width NT ET (num 0) (num 1)) with (S754_finite false 5902958103587057 (-69)) by (vm_compute; reflexivity). unfold fR, SF2R, F2R. cbn. lra.
Qed.
Example square_area : exists r : f64, outcome (AInt square X (AScalar (num 0)) (AScalar (num 1))) ctx0 (Ok [@Scalar NT r]) /\ fvalid r = true.
Proof.
  destruct (c78_integral toy ctx0 square (AScalar (num 0)) (AScalar (num 1)) X (num 0) (num 1) (fun t => t * t * t / 3)%R) as (m0 & ms & e0 & es & r & H).
  - constructor.
  - exact square_poly.
  - apply scalar_outcome.
  - apply scalar_outcome.
  - split; reflexivity.
  - split; reflexivity.
  - rewrite zero_value, one_value. lra.
  - split; vm_compute; reflexivity.
  - destruct dx_value as [L1 L2]. rewrite zero_value, one_value, Rabs_R0, Rabs_R1, Rmax_right by lra. unfold AreaSpec.slip, unit_roundoff.
    assert (B : (/ 2 ^ 53 <= / 10000000)%R).
    { apply Rinv_le_contravar; [lra|]. rewrite (pow_IZR 2). apply IZR_le. vm_compute. discriminate. }
    assert (B0 : (0 < / 2 ^ 53)%R) by (apply Rinv_0_lt_compat, pow_lt; lra). set (q := (/ 2 ^ 53)%R) in *.
    assert (Gw : forall w, (/ 1000000 < w -> w < 1 -> q * (1 + w) < w)%R); [|exact (Gw _ L1 L2)].
    intros w W1 W2. assert (Q : (q * (1 + w) <= q * 2)%R) by (apply Rmult_le_compat_l; lra). lra.
  - destruct dx_value as [L1 L2]. rewrite zero_value, one_value, Rabs_R0, Rabs_R1, Rmax_right by lra. apply (Rlt_trans _ 9); [assert (Gw : forall w, (w < 1 -> 3 * (1 + w + 1) < 9)%R) by (intros; lra); exact (Gw _ L2)|]. unfold overflow_threshold. apply IZR_lt. vm_compute. reflexivity.
  - intros t. change (derivable_pt_lim (fun t => t * t * t / 3)%R t (t * t)%R).
    replace (t * t)%R with (((1 * t + t * 1) * t + t * t * 1) / 3)%R by field.
    apply (derivable_pt_lim_ext (fun t => (t * t * t) * (fun _ => / 3) t)%R); [reflexivity|].
    replace (((1 * t + t * 1) * t + t * t * 1) / 3)%R with (((1 * t + t * 1) * t + t * t * 1) * (/ 3) + (t * t * t) * 0)%R by field.
    apply (derivable_pt_lim_mult (fun t => t * t * t)%R (fun _ => / 3)%R); [|apply derivable_pt_lim_const].
    apply (derivable_pt_lim_mult (fun t => t * t)%R (fun t => t)); [|apply derivable_pt_lim_id].
    apply (derivable_pt_lim_mult (fun t => t) (fun t => t)); apply derivable_pt_lim_id.
  - cbv zeta in H. exists r. split; apply H.
Qed.
End Examples.
